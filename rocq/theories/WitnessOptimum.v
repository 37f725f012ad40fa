(** WitnessOptimum.v -- cases of C93 and C94: three components that repel each
    other equally. *)

From Coquelicot Require Import Coquelicot.
From Coq Require Import Reals Lra Lia String List Bool Arith ZArith Classical FunctionalExtensionality.
From Verif Require Import Base ModelCommon ModelParts ModelKernel ModelPhases ModelFinder ProofsKernel ProofsParts ProofsSteps
  ProofsHistory ProofsRun ProofsRun2 ModelFreeEnergy ProofsFreeEnergy Spec Examples PropertiesKernel PropertiesRun PropertiesFreeEnergy
  PropertiesConstraints ProofsEquilibrium PropertiesEquilibrium PropertiesConvex PropertiesBinary PropertiesAccuracy
  ProofsOptimum PropertiesOptimum PropertiesMixing WitnessEquilibrium WitnessBinary WitnessAccuracy.
Import ListNotations.
Open Scope R_scope.

Definition equal_chi (chi : R) : mat := fun i j => if Nat.eqb i j then 0 else chi.
Definition ones : vec := fun _ => 1.
Definition third : vec := fun _ => 1 / 3.

Lemma tri_adm chi pm : (forall i, (i < 3)%nat -> 0 < pm i) -> admissible 3 3 (equal_chi chi) ones pm.
Proof. intros H. split; [lia|]. split; [intros; unfold equal_chi; now rewrite Nat.eqb_sym|]. split; [|exact H]. intros; unfold ones; lra. Qed.
Lemma third_sum : rsum 3 third = 1. Proof. unfold third. cbn. lra. Qed.
Definition still : cons_obj cstate := {| o_class := no_class 3; o_state := k_init (no_class 3) 2 cstate0 |}.
Lemma still_idle : Forall idle [still]. Proof. constructor; [|constructor]. split; [now exists 3%nat|split; reflexivity]. Qed.
Definition tri_F chi : fe := fe_of 3 (fun i => i) (equal_chi chi) ones.

(** five or three compartments of a kernel with a constraint that does nothing *)
Definition tri_q chi np thr : kernel :=
  {| q_inter := fh_compile 3 (equal_chi chi) (1 / 10); q_entropy := ig_compiled 3 ones; q_ensemble := can_compiled 3 third;
     q_nf := 3; q_np := np; q_acc_J := 1 / 5000; q_ub := 1 / 1000; q_acc_w := 1 / 500; q_thr := thr; q_scaler := 1 |}.

(** at this composition the homogeneous state is unstable *)
Lemma tri_unstable mu : potentials (tri_F 4) third mu -> ~ stable (tri_F 4) mu.
Proof.
  apply (concave_unstable (tri_F 4) third (fun i => if Nat.eqb i 0 then 1 else if Nat.eqb i 1 then -1 else 0)).
  - apply (wf_admissible 3 3 (fun i => i) (equal_chi 4) ones third); [apply tri_adm; intros; unfold third; lra|auto].
  - intros; cbn; unfold ones; lra.
  - intros; unfold third; lra.
  - apply third_sum.
  - cbn. lra.
  - unfold form. cbn. unfold equal_chi, ones, third. cbn. lra.
Qed.

(** the equilibrium of an equimolar mixture: two or three different phases *)
Lemma tri_equilibrium : exists N w u mu, (N <= 3)%nat /\ coexist (tri_F 4) third N w u mu /\ stable (tri_F 4) mu /\
  exists p r i, (p < N)%nat /\ (r < N)%nat /\ (i < 3)%nat /\ u p i <> u r i.
Proof.
  assert (AD : admissible 3 3 (equal_chi 4) ones third) by (apply tri_adm; intros; unfold third; lra).
  destruct (C93_exists 3 3 (fun i => i) (equal_chi 4) ones third AD ltac:(auto) third_sum) as (N & w & u & mu & LN & CX & ST & _).
  exists N, w, u, mu. split; [exact LN|]. split; [exact CX|]. split; [exact ST|].
  apply NNPP. intros ND.
  assert (EQ : forall p i, (p < N)%nat -> (i < 3)%nat -> u p i = u 0%nat i).
  { intros p i Hp Hi. apply NNPP. intros X. apply ND. exists p, 0%nat, i. pose proof (cx_some _ _ _ _ _ _ CX). auto. }
  apply (tri_unstable mu); [|exact ST].
  pose proof (cx_mu _ _ _ _ _ _ CX 0%nat (cx_some _ _ _ _ _ _ CX)) as Q. unfold potentials in *. change (fe_nc (tri_F 4)) with 3%nat in *.
  rewrite (listed_ext 3 third (u 0%nat)); [exact Q|]. intros i Hi.
  rewrite <- (cx_mean _ _ _ _ _ _ CX i Hi). rewrite (rsum_ext N _ (fun p => w p * u 0%nat i)) by (intros; now rewrite EQ).
  rewrite rsum_scal_r, (cx_w1 _ _ _ _ _ _ CX). ring.
Qed.

Lemma tri_calm chi np : (3 <= np)%nat -> exists (k k' : kstate nat cstate) v,
  calm (tri_q chi np 0) k k' 3 3 (fun i => i) (equal_chi chi) (1 / 10) ones third /\ mean_energy (tri_q chi np 0) k k' (tri_F chi) v /\ least (tri_F chi) third v.
Proof.
  intros Hnp. assert (AD : admissible 3 3 (equal_chi chi) ones third) by (apply tri_adm; intros; unfold third; lra).
  destruct (C93_exists 3 3 (fun i => i) (equal_chi chi) ones third AD ltac:(auto) third_sum) as (N & w & u & mu & LN & CX & ST & EX).
  destruct (EX nat (tri_q chi np 0) (1 / 10) [still] 0%nat) as (k & k' & nv & rep & v & K1 & _ & H & E1 & E2 & E3 & _ & _ & _ & MV & LV);
    try reflexivity; try (cbn; lra).
  - now constructor.
  - cbn. lia.
  - intros p Hp. cbn -[INR]. apply Rmult_lt_0_compat; [apply lt_0_INR; lia|now apply (cx_w _ _ _ _ _ _ CX)].
  - exact still_idle.
  - exists k, k', v. split; [|split; [exact MV|exact LV]]. constructor; auto.
    + now constructor.
    + cbn; lra.
    + rewrite K1. exact still_idle.
    + exists nv, rep. auto.
Qed.

(** finders with three and with five compartments: the same potentials *)
Example case_C93_unique : exists (k k' h h' : kstate nat cstate) mu, calm (tri_q 4 3 0) k k' 3 3 (fun i => i) (equal_chi 4) (1 / 10) ones third /\
  calm (tri_q 4 5 0) h h' 3 3 (fun i => i) (equal_chi 4) (1 / 10) ones third /\ stable (tri_F 4) mu /\
  (forall m, (m < 3)%nat -> alive 0 (v_Js k) m -> potentials (tri_F 4) (fun i => v_phis_comp k' i m) mu) /\
  (forall m, (m < 5)%nat -> alive 0 (v_Js h) m -> potentials (tri_F 4) (fun i => v_phis_comp h' i m) mu).
Proof.
  destruct (tri_calm 4 3) as (k & k' & v & C1 & M1 & L1); [lia|]. destruct (tri_calm 4 5) as (h & h' & v2 & C2 & M2 & L2); [lia|].
  destruct (C93_unique _ _ _ _ _ _ _ _ _ _ _ _ _ _ C1 C2 v v2 M1 L1 M2 L2) as (_ & mu & P & P2).
  destruct (proj1 (C93_stable_iff _ _ _ _ _ _ _ _ _ _ C1) (ex_intro _ v (conj M1 L1))) as (mu' & P' & ST).
  exists k, k', h, h', mu. split; [exact C1|]. split; [exact C2|]. split; [|split; [exact P|exact P2]].
  destruct (calm_facts _ _ _ _ _ _ _ _ _ _ C1) as (_ & SP & L0 & LA & _).
  assert (ANY : exists m, (m < 3)%nat /\ 0 < living 0 (v_Js k) m).
  { destruct (least_or 3 (fun m => 0 < living 0 (v_Js k) m)) as [X|X]; [intros m; destruct (Rlt_dec 0 (living 0 (v_Js k) m)); auto|exact X|].
    exfalso. change (q_np (tri_q 4 3 0)) with 3%nat in *. change (q_thr (tri_q 4 3 0)) with 0 in *. rewrite (rsum_zero 3) in SP; [lra|].
    intros m Hm. specialize (X m Hm). specialize (L0 m Hm). lra. }
  destruct ANY as (m & Hm & A). apply (LA m Hm) in A.
  intros psi e N1 S1 EI. specialize (ST psi e N1 S1 EI). rewrite <- (rsum_ext (fe_nc (tri_F 4)) (fun i => mu' i * psi i)); [exact ST|].
  intros i Hi. f_equal. exact (potentials_inj _ _ _ _ (P' m Hm A) (P m Hm A) i Hi).
Qed.

(** a finder with four compartments, prepared in the equilibrium, stays there
    and returns two different phases *)
Definition tri_finder N w u : finder nat cstate :=
  {| f_inter := fh_compile 3 (equal_chi 4) (1 / 10); f_entropy := ig_compiled 3 ones; f_ensemble := can_compiled 3 third;
     f_nc := 3; f_nf := 3; f_np := 4; f_par := ex_par 0 0; f_kwargs := [];
     f_k := poise N w u 3 (fun i => i) (equal_chi 4) ones [still] 0%nat; f_left := 0%Z; f_diag := None |}.
Example case_C93_run : exists N w u mu f' ph d p r i, run ops0 (tri_finder N w u) None None None = (f', Ok ph) /\ f_diag f' = Some d /\ within d 0 /\
  coexist (tri_F 4) third N w u mu /\ (p < 4)%nat /\ (r < 4)%nat /\ (i < 3)%nat /\ frac ph p i <> frac ph r i.
Proof.
  destruct tri_equilibrium as (N & w & u & mu & LN & CX & ST & p & r & i & Hp & Hr & Hi & NE).
  assert (AD : admissible 3 3 (equal_chi 4) ones third) by (apply tri_adm; intros; unfold third; lra).
  destruct (schedule_ok 10 5 ltac:(lra) ltac:(lra)) as (tr & inner & SC & TR & _).
  assert (NP : 0 < INR N) by (apply lt_0_INR; exact (cx_some _ _ _ _ _ _ CX)).
  destruct (C93_run ops0 (tri_finder N w u) 3 3 (fun i => i) (equal_chi 4) (1 / 10) ones third N w u mu None None None tr inner) as (f' & ph & d & o & H & HD & W & FR & VO); auto;
    try reflexivity; try (cbn; lra).
  - exact ops0_contract.
  - now constructor.
  - cbn. lia.
  - intros s Hs. cbn -[INR]. apply Rmult_lt_0_compat; [exact NP|now apply (cx_w _ _ _ _ _ _ CX)].
  - left. cbn. lia.
  - apply (poise_poised _ N w u mu ones [still] 0%nat 3 (fun i => i) (equal_chi 4) third); [apply (wf_admissible 3 3 (fun i => i) (equal_chi 4) ones third AD); auto|exact CX].
  - exact still_idle.
  - assert (SRC : forall s, (s < N)%nat -> exists p, (p < 4)%nat /\ o p = s).
    { intros s Hs. specialize (VO s Hs). change (f_np (tri_finder N w u)) with 4%nat in VO.
      destruct (least_or 4 (fun p => o p = s)) as [X|X]; [intros z; destruct (Nat.eq_dec (o z) s); auto|exact X|].
      exfalso. rewrite (rsum_zero 4) in VO.
      - assert (0 < INR N * w s) by (apply Rmult_lt_0_compat; [exact NP|now apply (cx_w _ _ _ _ _ _ CX)]). lra.
      - intros z Hz. destruct (Nat.eqb_spec (o z) s) as [E|]; [|reflexivity]. exfalso. exact (X z Hz E). }
    destruct (SRC p Hp) as (p1 & Hp1 & O1). destruct (SRC r Hr) as (r1 & Hr1 & O2).
    exists N, w, u, mu, f', ph, d, p1, r1, i. split; [exact H|]. split; [exact HD|]. split; [exact W|]. split; [exact CX|].
    split; [exact Hp1|]. split; [exact Hr1|]. split; [exact Hi|].
    rewrite (proj2 (FR p1 Hp1) i Hi), (proj2 (FR r1 Hr1) i Hi), O1, O2. exact NE.
Qed.

(** at the critical repulsion all compartments are alike, beyond it not *)
Example case_C94_canonical np : (3 <= np)%nat -> exists k k' : kstate nat cstate, calm (tri_q 2 np 0) k k' 3 3 (fun i => i) (equal_chi 2) (1 / 10) ones third /\
  forall m i, (m < np)%nat -> alive 0 (v_Js k) m -> (i < 3)%nat -> v_phis_comp k' i m = 1 / 3.
Proof.
  intros Hnp. destruct (tri_calm 2 np Hnp) as (k & k' & v & C & _). exists k, k'. split; [exact C|].
  apply (C94_canonical _ _ _ _ _ _ _ _ _ _ C). apply (proj2 (C94_uniform 3 2 1 ltac:(lia) ltac:(lra))). lra.
Qed.

Example case_C94_demixes chi : 2 < chi -> exists pm, rsum 3 pm = 1 /\ forall (g : nat),
  exists q (k k' : kstate nat cstate) m n i, calm q k k' 3 3 (fun i => i) (equal_chi chi) 0 ones pm /\ v_g k = g /\ (m < q_np q)%nat /\ (n < q_np q)%nat /\
    alive (q_thr q) (v_Js k) m /\ alive (q_thr q) (v_Js k) n /\ (i < 3)%nat /\ v_phis_comp k' i m <> v_phis_comp k' i n.
Proof.
  intros HX. destruct (C94_demixes 3 3 (fun i => i) (equal_chi chi) ones) as (pm & _ & PS & D).
  - apply tri_adm. intros; lra.
  - auto.
  - intros MX. apply (proj1 (C94_uniform 3 chi 1 ltac:(lia) ltac:(lra))) in MX. lra.
  - exists pm. split; [exact PS|]. intros g.
    set (q := {| q_inter := fh_compile 3 (equal_chi chi) 0; q_entropy := ig_compiled 3 ones; q_ensemble := can_compiled 3 pm; q_nf := 3; q_np := 3;
                 q_acc_J := 1; q_ub := 1; q_acc_w := 1; q_thr := 0; q_scaler := 1 |}).
    destruct (D nat q 0 [] g) as (k & k' & v & _ & KG & C & _ & _ & m & n & i & X); try reflexivity; try (cbn; lra); try (cbn; lia).
    + now constructor.
    + constructor.
    + exists q, k, k', m, n, i. split; [exact C|]. split; [exact KG|]. exact X.
Qed.

Lemma weak_mixable : mixable (fe_of 2 (fun i => i) weak_chi sym_sizes).
Proof. apply (proj2 (C94_uniform 2 1 1 ltac:(lia) ltac:(lra))). lra. Qed.

(** runs of a mixture below the critical repulsion *)
Example case_C94_run e : 0 < e -> exists tol, 0 < tol /\
  (forall (f : finder nat cstate) a t i f' ph d, solves ops0 f 2 2 (fun i => i) weak_chi (1 / 10) sym_sizes -> f_ensemble f = can_compiled 2 half -> f_np f = 2%nat ->
    run ops0 f a t i = (f', Ok ph) -> f_diag f' = Some d -> within d tol -> (forall c, (c < 2)%nat -> Rabs (mean_fraction ph c - half c) <= tol) ->
    forall p c, (p < 2)%nat -> (c < 2)%nat -> Rabs (frac ph p c - 1 / 2) < e) /\
  exists (f : finder nat cstate) f' ph d, solves ops0 f 2 2 (fun i => i) weak_chi (1 / 10) sym_sizes /\ f_ensemble f = can_compiled 2 half /\ f_np f = 2%nat /\
    run ops0 f (Some 2) (Some tol) (Some 1) = (f', Ok ph) /\ f_diag f' = Some d /\ within d tol /\
    forall c, (c < 2)%nat -> Rabs (mean_fraction ph c - half c) <= tol.
Proof.
  intros He.
  assert (AD : admissible 2 2 weak_chi sym_sizes half).
  { split; [lia|]. split; [intros; unfold weak_chi; now rewrite Nat.eqb_sym|]. split; intros; unfold sym_sizes, half; lra. }
  destruct (C94_run 2 2 2 (fun i => i) weak_chi (1 / 10) sym_sizes half AD ltac:(auto) ltac:(lia) weak_mixable e He) as (tol & T & B).
  exists tol. split; [exact T|]. split.
  - intros f a t i f' ph d HS HE EN H HD W HM p c Hp Hc. exact (B nat ops0 f a t i f' ph d HS HE EN H HD W HM p c Hp Hc).
  - set (f := pair_finder weak_chi (can_compiled 2 half) (fun _ _ => 1 / 2) weak_mu).
    destruct (pair_run weak_chi (can_compiled 2 half) (fun _ _ => 1 / 2) weak_mu tol) as (f' & ph & d & H & HD & _ & W & V); [eapply builtin_total_ig_can; reflexivity| |exact T|].
    { apply pair_fixed; try (intros; lra).
      - intros. unfold weak_chi. now rewrite Nat.eqb_sym.
      - intros m Hm. apply potentials_mu; [|intros; lra]. destruct AD as (_ & A & A' & _). split; cbn; [intros i Hi; specialize (A' i Hi); lra|auto]. }
    exists f, f', ph, d. split; [split; [exact ops0_contract|cbn; lra|reflexivity|now constructor|constructor]|].
    split; [reflexivity|]. split; [reflexivity|]. split; [exact H|]. split; [exact HD|]. split; [revert W; apply within_le; lra|].
    intros c Hc. rewrite (pair_means _ _ _ _ _ _ c H eq_refl Hc (fun p Hp => proj1 (V p Hp))).
    rewrite (proj2 (V 0%nat ltac:(lia)) c Hc), (proj2 (V 1%nat ltac:(lia)) c Hc). unfold half.
    replace ((1 / 2 + 1 / 2) / 2 - 1 / 2) with 0 by field. rewrite Rabs_R0. lra.
Qed.

(** a polymer of one kind against two of another kind: three components carry
    two features *)
Definition blend : nat -> nat := fun r => if Nat.eqb r 0 then 1%nat else 2%nat.
Definition blend_sizes : vec := fun i => if Nat.ltb i 2 then 1 else 2.
Definition blend_q pm : kernel :=
  {| q_inter := fh_compile 2 (equal_chi 5) 0; q_entropy := pg_compiled 3 2 blend blend_sizes; q_ensemble := can_compiled 3 pm; q_nf := 2; q_np := 6;
     q_acc_J := 1; q_ub := 1; q_acc_w := 1; q_thr := 0; q_scaler := 1 |}.
Lemma blend_mixture pm : mixture (blend_q pm) 3 2 (feature_of 2 blend) (equal_chi 5) 0 blend_sizes.
Proof.
  change 3%nat with (nsum 2 blend). apply (mix_poly (blend_q pm) 2 blend (equal_chi 5) 0 blend_sizes); try reflexivity.
  intros [|r] _; cbn; lia.
Qed.
Lemma blend_demixes : ~ mixable (fe_of 3 (feature_of 2 blend) (equal_chi 5) blend_sizes).
Proof.
  intros H. specialize (H (fun i => if Nat.eqb i 0 then 1 else if Nat.eqb i 1 then -1 else 0)). revert H. unfold form. cbn.
  unfold equal_chi, blend_sizes. cbn. rewrite sqrt_1, Rabs_R0, (Rabs_left (-1)), Rabs_R1 by lra. intros H. specialize (H ltac:(lra)).
  replace (0 + 1 / 1 + - (-1) / 1 + 0 / sqrt 2) with 2 in H by (unfold Rdiv; rewrite Rinv_1; ring). lra.
Qed.
Example case_C94_blend : exists pm k k' m n i, calm (blend_q pm) k k' 3 2 (feature_of 2 blend) (equal_chi 5) 0 blend_sizes pm /\ v_g k = 0%nat /\
  (exists v, mean_energy (blend_q pm) k k' (fe_of 3 (feature_of 2 blend) (equal_chi 5) blend_sizes) v /\ least (fe_of 3 (feature_of 2 blend) (equal_chi 5) blend_sizes) pm v) /\
  (m < 6)%nat /\ (n < 6)%nat /\ (i < 3)%nat /\ v_phis_comp k' i m <> v_phis_comp k' i n.
Proof.
  destruct (C94_demixes 3 2 (feature_of 2 blend) (equal_chi 5) blend_sizes) as (pm & HP & PS & D).
  - split; [lia|]. split; [intros; unfold equal_chi; now rewrite Nat.eqb_sym|]. split; [|intros; lra].
    intros i Hi. unfold blend_sizes. destruct (Nat.ltb i 2); lra.
  - apply (mixture_rho _ _ _ _ _ _ _ (blend_mixture third)).
  - apply blend_demixes.
  - destruct (D nat (blend_q pm) 0 [still] 0%nat (blend_mixture pm)) as (k & k' & v & _ & KG & C & MV & LV & m & n & i & Hm & Hn & _ & _ & Hi & NE);
      try reflexivity; try (cbn; lra); try (cbn; lia); [exact still_idle|].
    exists pm, k, k', m, n, i. split; [exact C|]. split; [exact KG|]. split; [now exists v|]. auto.
Qed.
