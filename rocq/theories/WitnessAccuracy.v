(** WitnessAccuracy.v -- cases of C92: runs that meet the hypotheses for every
    tolerance. *)

From Coquelicot Require Import Coquelicot.
From Coq Require Import Reals Lra Lia String List Bool Arith ZArith FunctionalExtensionality.
From Verif Require Import Base ModelCommon ModelParts ModelKernel ModelPhases ModelFinder ProofsKernel ProofsParts ProofsSteps
  ProofsHistory ProofsRun ProofsRun2 ModelFreeEnergy ProofsFreeEnergy Spec Examples PropertiesKernel PropertiesRun PropertiesFreeEnergy
  PropertiesConstraints ProofsEquilibrium PropertiesEquilibrium PropertiesEnsembles PropertiesConvex PropertiesConsistency ProofsBinary PropertiesBinary PropertiesAccuracy
  WitnessEquilibrium WitnessConsistency WitnessBinary.
Import ListNotations.
Open Scope R_scope.

(** two compartments of equal volumes, without constraints, at given chemical
    potentials and fractions *)
Definition pair_finder (chi : mat) (ens : ensemble) (phi : mat) (mu : vec) : finder nat cstate :=
  {| f_inter := fh_compile 2 chi (1 / 10); f_entropy := ig_compiled 2 sym_sizes; f_ensemble := ens;
     f_nc := 2; f_nf := 2; f_np := 2; f_par := ex_par 0 0; f_kwargs := [];
     f_k := {| v_omegas := fun i m => mu i - 1 / 1 - ln (phi i m) / 1; v_Js := fun _ => 1;
       v_phis_comp := fun _ _ => 0; v_phis_feat := fun _ _ => 0; v_cons := []; v_g := 0%nat |}; f_left := 0%Z; f_diag := None |}.
(** a step of it leaves everything in place *)
Definition fixed (f : finder nat cstate) (phi : mat) : Prop := exists k' nv rep, iterate (kernel_of f) (f_k f) = Ok (k', nv, rep) /\
  e_incomp rep = 0 /\ e_omega rep = 0 /\ e_Js rep = 0 /\ e_cons rep = 0 /\ nv = 2%Z /\
  forall m, (m < 2)%nat -> v_Js k' m = 1 /\ forall i, (i < 2)%nat -> v_phis_comp k' i m = phi i m.

Definition half : vec := fun _ => 1 / 2.

Lemma pair_fixed chi phi mu : (forall r s, chi r s = chi s r) -> (forall i m, 0 < phi i m) -> (forall m, (m < 2)%nat -> phi 0%nat m + phi 1%nat m = 1) ->
  (forall i, (i < 2)%nat -> phi i 0%nat + phi i 1%nat = 1) ->
  (forall m, (m < 2)%nat -> potentials (fe_of 2 (fun i => i) chi sym_sizes) (fun i => phi i m) mu) ->
  fixed (pair_finder chi (can_compiled 2 half) phi mu) phi.
Proof.
  intros SY P0 PS PM PP. set (f := pair_finder _ _ _ _).
  assert (AD : admissible 2 2 chi sym_sizes half).
  { split; [lia|]. split; [auto|]. split; intros; unfold sym_sizes, half; lra. }
  assert (AL : forall m, alive 0 (v_Js (f_k f)) m) by (intros m; unfold alive; cbn; lra).
  destruct (C52_constrained_stationary (kernel_of f) (f_k f) 2 chi (1/10) sym_sizes half phi mu)
    as (k' & nv & rep & H & E1 & E2 & E3 & E4 & E5); try reflexivity; auto.
  - cbn; lra.
  - cbn; lra.
  - constructor.
  - exists 0%nat. split; [cbn; lia|apply AL].
  - intros m Hm _. cbn in Hm. split; [intros; apply P0|]. split; [|split].
    + cbn. specialize (PS m Hm). lra.
    + exists mu. split; [now apply PP|]. intros i Hi. cbn. ring.
    + intros i Hi. reflexivity.
  - intros i Hi. unfold wmean, living. cbn. destruct (Rlt_dec 0 1); [|lra]. specialize (PM i Hi). unfold half. rewrite !Rplus_0_l, !Rmult_1_l, PM. lra.
  - exists k', nv, rep. split; [exact H|]. split; [exact E1|]. split; [exact E2|]. split; [exact E3|]. split; [exact E4|].
    assert (NA : num_alive 2 0 (fun _ => 1) = 2%nat).
    { rewrite num_alive_ncount. rewrite (proj2 (ncount_all _ _)); [reflexivity|]. intros. apply Rltb_true. lra. }
    split.
    + pose proof (C02_volumes_normalised _ _ _ _ _ H) as (-> & _). change (Z.of_nat (num_alive 2 0 (fun _ => 1)) = 2%Z). now rewrite NA.
    + intros m Hm. split; [|intros i Hi; apply E5; auto].
      destruct (C12_zero_residuals (kernel_of f) (f_k f) k' nv rep 2 2 (fun i => i) chi (1/10) sym_sizes half)
        as (mu' & P); auto.
      * now constructor.
      * left. reflexivity.
      * cbn; lra.
      * constructor.
      * destruct (P m Hm (AL m)) as (_ & _ & _ & _ & EJ). rewrite EJ; [reflexivity|]. cbn -[INR num_alive]. rewrite NA.
        unfold living. destruct (Rlt_dec 0 1); [cbn; lra|lra].
Qed.

Lemma pair_run chi ens phi mu tol : let f := pair_finder chi ens phi mu in
  parts_total (kernel_of f) -> fixed f phi -> 0 < tol -> exists f' ph d, run ops0 f (Some 2) (Some tol) (Some 1) = (f', Ok ph) /\
  f_diag f' = Some d /\ d_steps d = 1%Z /\ within d 0 /\ forall p, (p < 2)%nat -> vol ph p = 1 /\ forall c, (c < 2)%nat -> frac ph p c = phi c p.
Proof.
  intros f PT (k' & nv & rep & EI & E1 & E2 & E3 & E4 & EV & ES) Ht.
  destruct (any_run f 2 tol 1) as (f' & ph & d & H & HD); try (cbn; lra); try reflexivity; auto.
  { exists 0%nat. split; [cbn; lia|cbn; lra]. }
  exists f', ph, d. split; [exact H|]. split; [exact HD|].
  assert (SC : schedule 2 1 = Ok (2%nat, 1%nat)).
  { pose proof (schedule_multiple 1 2 ltac:(lia) ltac:(lia)) as X. cbn in X. replace (1 + 1) with 2 in X by ring. exact X. }
  unfold run in H. rewrite SC in H. cbn [run_loop r_f] in H. unfold metastep at 1 in H. cbn [steps bind] in H. unfold one_step at 1 in H. cbn [w_count w_k] in H.
  assert (MR : maybe_revive ops0 (kernel_of f) (f_left f) 0 (f_k f) = (0%nat, f_k f)) by reflexivity.
  rewrite MR in H. rewrite EI in H. cbn [bind w_rep w_count w_k w_valid] in H.
  assert (CV : Z.of_nat (count_valid (q_np (kernel_of f)) (v_Js k') (q_thr (kernel_of f))) = 2%Z).
  { unfold count_valid. rewrite (proj2 (ncount_all _ _)); [reflexivity|]. intros m Hm. apply Rltb_true.
    rewrite (proj1 (ES m Hm)). cbn. lra. }
  rewrite CV, EV in H. cbn [Z.eqb Pos.eqb] in H.
  assert (CO : converged tol true rep = true).
  { unfold converged. rewrite E1, E2, E3, E4. cbn [andb]. rewrite (proj2 (Rltb_true 0 tol) Ht). reflexivity. }
  rewrite CO in H. change (String.eqb (m_criterion (f_par f)) "standard") with true in H. cbv iota in H.
  cbn [r_f r_rep f_k with_left with_k f_np f_par r_steps] in H.
  destruct (revive_by_copy _ _ _ _ _ _) as [[[[cc J] P] gg]|e] eqn:ER; [|discriminate].
  pose proof (f_equal snd H) as HP. apply (f_equal fst) in H. cbn [fst snd] in H, HP. subst f'.
  injection HD as <-. split; [reflexivity|]. split.
  { unfold within. cbn. rewrite E1, E2, E3. lra. }
  apply result_phases_ok in HP. destruct HP as (HV & HF & _). cbn [with_k with_left f_nc f_np f_par] in HV, HF.
  change (f_np f) with 2%nat in *. change (f_nc f) with 2%nat in *. change (m_thr (f_par f)) with 0 in ER.
  assert (AL : forall m, (m < 2)%nat -> alive 0 (v_Js k') m). { intros m Hm. unfold alive. rewrite (proj1 (ES m Hm)). lra. }
  destruct (C07_copy_conserves _ _ _ _ _ _ _ _ _ _ ops0_contract (Rle_refl 0) ER) as (_ & (o & O1 & O2 & O3) & _).
  intros p Hp. unfold vol, frac. rewrite HV, HF. rewrite !nth_map_seq by auto. split.
  - pose proof (O3 p Hp (AL p Hp)) as S. cbn [rsum] in S. rewrite (proj1 (ES p Hp)) in S.
    rewrite (O2 0%nat), (O2 1%nat) in S by (try lia; apply AL; lia). destruct p as [|[|?]]; [| |lia]; cbn in S; lra.
  - intros c Hc. rewrite nth_map_seq by auto. rewrite (proj2 (proj2 (O1 p Hp))), (O2 p Hp (AL p Hp)). now apply (proj2 (ES p Hp)).
Qed.

(* ------------------------------------------------------------------ *)
(** * The demixed symmetric blend *)

Definition sym_finder : finder nat cstate := pair_finder sym_chi (can_compiled 2 half) sym_phi sym_mu.

Lemma sym_run tol : 0 < tol -> exists f' ph d, run ops0 sym_finder (Some 2) (Some tol) (Some 1) = (f', Ok ph) /\
  f_diag f' = Some d /\ d_steps d = 1%Z /\ within d 0 /\ forall p, (p < 2)%nat -> vol ph p = 1 /\ forall c, (c < 2)%nat -> frac ph p c = sym_phi c p.
Proof.
  intros Ht. apply pair_run; [eapply builtin_total_ig_can; reflexivity| |exact Ht]. apply pair_fixed.
  - intros. unfold sym_chi. now rewrite Nat.eqb_sym.
  - intros. apply sym_phi_pos.
  - intros [|[|m]] Hm; [| |lia]; unfold sym_phi; cbn; lra.
  - intros [|[|m]] Hm; [| |lia]; unfold sym_phi; cbn; lra.
  - intros. now apply sym_potentials.
Qed.

Lemma sym_solves : solves ops0 sym_finder 2 2 (fun i => i) sym_chi (1 / 10) sym_sizes.
Proof. split; [exact ops0_contract|cbn; lra|reflexivity|now constructor|constructor]. Qed.

Lemma sym_adm : admissible 2 2 sym_chi sym_sizes half.
Proof. apply sym_admissible. intros; unfold half; lra. Qed.

Lemma within_le d s t : s <= t -> within d s -> within d t.
Proof. unfold within. lra. Qed.

Lemma pair_means (f : finder nat cstate) a t i f' ph c : run ops0 f a t i = (f', Ok ph) -> f_np f = 2%nat -> (c < f_nc f)%nat ->
  (forall p, (p < 2)%nat -> vol ph p = 1) -> mean_fraction ph c = (frac ph 0 c + frac ph 1 c) / 2.
Proof.
  intros H EN Hc V. apply run_inv in H. destruct H as (tr & inner & j & w & rep & n & J & phi & g & RF).
  rewrite (mean_fraction_eq _ _ _ _ _ _ _ _ _ _ _ _ _ _ _ _ c RF Hc).
  destruct (run_vol_frac _ _ _ _ _ _ _ _ _ _ _ _ _ _ _ _ RF) as (EV & EF). rewrite EN in *. cbn [rsum].
  rewrite <- !EV by lia. rewrite <- !EF by (auto; lia). rewrite !V by lia. field.
Qed.

(** The run is as accurate as one asks for. *)
Example case_C92_pair e : 0 < e -> exists f' ph d tol u, run ops0 sym_finder (Some 2) (Some tol) (Some 1) = (f', Ok ph) /\
  f_diag f' = Some d /\ within d tol /\ coexisting (fe_of 2 (fun i => i) sym_chi sym_sizes) 2 u /\
  Rabs (3 / 4 - u 0%nat 0%nat) < e /\ Rabs (1 / 4 - u 1%nat 0%nat) < e.
Proof.
  intros He. destruct (C92_pair 2 2 (fun i => i) sym_chi (1 / 10) sym_sizes half sym_adm ltac:(auto) e He) as (tol & T & B).
  destruct (sym_run tol T) as (f' & ph & d & H & HD & _ & W & V). exists f', ph, d, tol.
  assert (W' : within d tol) by (revert W; apply within_le; lra).
  destruct (B nat ops0 sym_finder _ _ _ f' ph d sym_solves eq_refl H HD W' 0%nat 1%nat) as (u & U1 & U2); [cbn; lia|cbn; lia|].
  exists u. split; [exact H|]. split; [exact HD|]. split; [exact W'|]. split; [exact U1|].
  destruct (U2 0%nat ltac:(lia)) as (X & Y). rewrite (proj2 (V 0%nat ltac:(lia)) 0%nat ltac:(lia)) in X. rewrite (proj2 (V 1%nat ltac:(lia)) 0%nat ltac:(lia)) in Y.
  unfold sym_phi in X, Y. cbn in X, Y. auto.
Qed.

(** The compositions of this blend on the phase diagram. *)
Lemma sym_binodal : binodal (fun i => i) sym_chi sym_sizes (1 / 4) (3 / 4).
Proof.
  split; [lra|]. split; [lra|]. split; [lra|]. exists sym_mu. intros p Hp.
  assert (E : forall c, (c < 2)%nat -> binary (if Nat.eqb p 0 then 1 / 4 else 3 / 4) c = sym_phi c (1 - p)).
  { intros [|[|c]] Hc; [| |lia]; destruct p as [|[|p]]; try lia; unfold binary, sym_phi; cbn; lra. }
  cbn [fe_of fe_nc]. split; [|split].
  - intros c Hc. rewrite E by exact Hc. apply sym_phi_pos.
  - cbn [rsum]. rewrite !E by lia. destruct p as [|[|p]]; try lia; unfold sym_phi; cbn; lra.
  - pose proof (sym_potentials (1 - p) ltac:(lia)) as P. unfold potentials in *. cbn [fe_of fe_nc] in *. rewrite <- P. f_equal. f_equal.
    apply listed_ext. intros c Hc. now apply E.
Qed.

Lemma sym_beyond : critical_repulsion sym_sizes < repulsion sym_chi (fun i => i).
Proof.
  apply (proj1 (proj1 (C92_binodal (fun i => i) sym_chi sym_sizes ltac:(unfold sym_sizes; lra) ltac:(unfold sym_sizes; lra) eq_refl))).
  eexists _, _. exact sym_binodal.
Qed.

(** Every sufficiently accurate result for this blend is homogeneous or consists
    of (1/4, 3/4) and (3/4, 1/4) at equal volumes; the run above is of the
    second kind. *)
Example case_C92_binary e : 0 < e <= 1 / 10 -> exists tol, 0 < tol /\
  (forall (f : finder nat cstate) a t i f' ph d, solves ops0 f 2 2 (fun i => i) sym_chi (1 / 10) sym_sizes -> f_ensemble f = can_compiled 2 half -> f_np f = 2%nat ->
    run ops0 f a t i = (f', Ok ph) -> f_diag f' = Some d -> within d tol -> (forall c, (c < 2)%nat -> Rabs (mean_fraction ph c - half c) <= tol) ->
    (forall p, (p < 2)%nat -> Rabs (frac ph p 0%nat - 1 / 2) < e) \/
    exists s : nat -> bool, (forall p, (p < 2)%nat -> Rabs (frac ph p 0%nat - if s p then 1 / 4 else 3 / 4) < e) /\
      Rabs (rsum 2 (fun p => if s p then share ph 2 p else 0) - 1 / 2) < e) /\
  exists f' ph d, run ops0 sym_finder (Some 2) (Some tol) (Some 1) = (f', Ok ph) /\ f_diag f' = Some d /\ within d tol /\
    (forall c, (c < 2)%nat -> Rabs (mean_fraction ph c - half c) <= tol) /\ ~ (forall p, (p < 2)%nat -> Rabs (frac ph p 0%nat - 1 / 2) < e).
Proof.
  intros (He & He2). destruct (C92_binary 2 2 (fun i => i) sym_chi (1 / 10) sym_sizes half sym_adm ltac:(auto) ltac:(lia) e He) as (tol & T & B).
  exists tol. split; [exact T|]. split.
  - intros f a t i f' ph d HS HE EN H HD W HM. destruct (B nat ops0 f a t i f' ph d HS HE EN H HD W HM) as [L|(_ & a0 & b0 & s & BI & AB & SU & SW)].
    + left. intros p Hp. exact (L p 0%nat Hp ltac:(lia)).
    + right. destruct (proj2 (C92_binodal (fun i => i) sym_chi sym_sizes ltac:(unfold sym_sizes; lra) ltac:(unfold sym_sizes; lra) eq_refl) _ _ _ _ BI sym_binodal)
        as (-> & ->).
      exists s. split; [intros p Hp; exact (SU p 0%nat Hp ltac:(lia))|]. unfold half in SW. replace ((3 / 4 - 1 / 2) / (3 / 4 - 1 / 4)) with (1 / 2) in SW by field. exact SW.
  - destruct (sym_run tol T) as (f' & ph & d & H & HD & _ & W & V). exists f', ph, d. split; [exact H|]. split; [exact HD|].
    split; [revert W; apply within_le; lra|]. split.
    + intros c Hc. rewrite (pair_means _ _ _ _ _ _ c H eq_refl Hc (fun p Hp => proj1 (V p Hp))).
      rewrite (proj2 (V 0%nat ltac:(lia)) c Hc), (proj2 (V 1%nat ltac:(lia)) c Hc). unfold half.
      replace ((sym_phi c 0 + sym_phi c 1) / 2 - 1 / 2) with 0; [rewrite Rabs_R0; lra|]. destruct c as [|[|c]]; [| |lia]; unfold sym_phi; cbn; field.
    + intros N. specialize (N 0%nat ltac:(lia)). rewrite (proj2 (V 0%nat ltac:(lia)) 0%nat ltac:(lia)) in N. unfold sym_phi in N. cbn in N.
      rewrite Rabs_right in N by lra. lra.
Qed.

(** Stopped by the tolerance: near an exact equilibrium with volumes. *)
Example case_C92_converged e : 0 < e -> exists f' ph tol u w, run ops0 sym_finder (Some 2) (Some tol) (Some 1) = (f', Ok ph) /\
  equilibrium (fe_of 2 (fun i => i) sym_chi sym_sizes) 2 half u w /\ Rabs (3 / 4 - u 0%nat 0%nat) < e /\ Rabs (1 / 2 - w 0%nat) < e.
Proof.
  intros He. destruct (C92_converged 2 2 2 (fun i => i) sym_chi (1 / 10) sym_sizes half 1 sym_adm ltac:(auto) ltac:(lia) e He) as (tol & T & B).
  destruct (sym_run tol T) as (f' & ph & d & H & HD & ES & W & V). exists f', ph, tol.
  destruct (B nat ops0 sym_finder (Some 2) (Some tol) (Some 1) f' ph d 2%nat 1%nat (start (f_k sym_finder))) as (u & w & U1 & U2 & U3).
  - exact sym_solves.
  - reflexivity.
  - reflexivity.
  - cbn; lra.
  - cbn; lra.
  - cbn; lra.
  - exact H.
  - exact HD.
  - pose proof (schedule_multiple 1 2 ltac:(lia) ltac:(lia)) as X. cbn in X. replace (1 + 1) with 2 in X by ring. exact X.
  - rewrite ES. discriminate.
  - rewrite ES. reflexivity.
  - unfold mean_one. cbn -[num_alive]. rewrite num_alive_ncount, (proj2 (ncount_all _ _)); [|intros; apply Rltb_true; lra].
    unfold living. destruct (Rlt_dec 0 1); [cbn; lra|lra].
  - cbn. lra.
  - exists u, w. split; [exact H|]. split; [exact U1|]. specialize (U2 0%nat 0%nat ltac:(lia) ltac:(lia)). specialize (U3 0%nat ltac:(lia)).
    rewrite (proj2 (V 0%nat ltac:(lia)) 0%nat ltac:(lia)) in U2. unfold share in U3. cbn [rsum] in U3.
    rewrite (proj1 (V 0%nat ltac:(lia))), (proj1 (V 1%nat ltac:(lia))) in U3. unfold sym_phi in U2. cbn in U2. split; [exact U2|].
    replace (1 / 2) with (1 / (0 + 1 + 1)) by field. exact U3.
Qed.

(** The same in the grand canonical ensemble. *)
Example case_C92_grand e : 0 < e -> exists mus (f : finder nat cstate) f' ph tol u,
  f_ensemble f = gc_compiled 2 (gc_activity_from_mu mus sym_sizes) /\ run ops0 f (Some 2) (Some tol) (Some 1) = (f', Ok ph) /\
  imposed (fe_of 2 (fun i => i) sym_chi sym_sizes) 2 mus u /\ Rabs (3 / 4 - u 0%nat 0%nat) < e /\ Rabs (1 / 4 - u 1%nat 0%nat) < e.
Proof.
  intros He. set (act := fun i => half i / boltzmann_mean (kernel_of sym_finder) (f_k sym_finder) (fun i => i) sym_sizes i).
  assert (Ha : forall i, 0 < act i).
  { intros i. apply Rdiv_lt_0_compat; [unfold half; lra|]. apply sym_boltzmann_pos; [cbn; lra|]. exists 0%nat. split; [cbn; lia|unfold alive; cbn; lra]. }
  assert (EA : gc_activity_from_mu (mu_for act sym_sizes) sym_sizes = act) by (apply mu_for_activity; auto; intros; unfold sym_sizes; lra).
  set (f := pair_finder sym_chi (gc_compiled 2 act) sym_phi sym_mu).
  assert (FX : fixed f sym_phi).
  { assert (FC : fixed sym_finder sym_phi).
    { apply pair_fixed.
      - intros. unfold sym_chi. now rewrite Nat.eqb_sym.
      - intros. apply sym_phi_pos.
      - intros [|[|m]] Hm; [| |lia]; unfold sym_phi; cbn; lra.
      - intros [|[|m]] Hm; [| |lia]; unfold sym_phi; cbn; lra.
      - intros. now apply sym_potentials. }
    destruct FC as (k' & nv & rep & H & R). exists k', nv, rep. split; [|exact R].
    exact (C54_canonical_as_grandcanonical (kernel_of sym_finder) (f_k sym_finder) 2 2 (fun i => i) sym_chi (1/10) sym_sizes half (k', nv, rep)
      ltac:(now constructor) eq_refl H). }
  assert (AD : admissible 2 2 sym_chi sym_sizes (fun _ => 1)) by (apply sym_admissible; intros; lra).
  destruct (C92_grand 2 2 2 (fun i => i) sym_chi (1 / 10) sym_sizes (mu_for act sym_sizes) AD ltac:(auto) ltac:(lia) e He) as (tol & T & B).
  destruct (pair_run sym_chi (gc_compiled 2 act) sym_phi sym_mu tol) as (f' & ph & d & H & HD & _ & W & V); [eapply builtin_total_ig_gc; reflexivity|exact FX|exact T|].
  exists (mu_for act sym_sizes), f, f', ph, tol. rewrite EA in *.
  destruct (B nat ops0 f (Some 2) (Some tol) (Some 1) f' ph d) as (u & U1 & U2); auto.
  - split; [exact ops0_contract|cbn; lra|reflexivity|now constructor|constructor].
  - revert W. apply within_le. lra.
  - exists u. split; [reflexivity|]. split; [exact H|]. split; [exact U1|].
    pose proof (U2 0%nat 0%nat ltac:(lia) ltac:(lia)) as X. pose proof (U2 1%nat 0%nat ltac:(lia) ltac:(lia)) as Y.
    rewrite (proj2 (V 0%nat ltac:(lia)) 0%nat ltac:(lia)) in X. rewrite (proj2 (V 1%nat ltac:(lia)) 0%nat ltac:(lia)) in Y.
    unfold sym_phi in X, Y. cbn in X, Y. auto.
Qed.

(** * A blend that does not demix *)

Example case_C92_mixed e : 0 < e -> exists tol, 0 < tol /\
  (forall (f : finder nat cstate) a t i f' ph d, solves ops0 f 2 2 (fun i => i) weak_chi (1 / 10) sym_sizes -> f_ensemble f = can_compiled 2 half -> f_np f = 2%nat ->
    run ops0 f a t i = (f', Ok ph) -> f_diag f' = Some d -> within d tol -> (forall c, (c < 2)%nat -> Rabs (mean_fraction ph c - half c) <= tol) ->
    forall p c, (p < 2)%nat -> (c < 2)%nat -> Rabs (frac ph p c - 1 / 2) < e) /\
  exists (f : finder nat cstate) f' ph d, solves ops0 f 2 2 (fun i => i) weak_chi (1 / 10) sym_sizes /\ f_ensemble f = can_compiled 2 half /\ f_np f = 2%nat /\
    run ops0 f (Some 2) (Some tol) (Some 1) = (f', Ok ph) /\ f_diag f' = Some d /\ within d tol /\
    forall c, (c < 2)%nat -> Rabs (mean_fraction ph c - half c) <= tol.
Proof.
  intros He.
  assert (AD : admissible 2 2 weak_chi sym_sizes half).
  { split; [lia|]. split; [intros; unfold weak_chi; now rewrite Nat.eqb_sym|]. split; intros; unfold sym_sizes, half; lra. }
  destruct (C92_mixed 2 2 2 (fun i => i) weak_chi (1 / 10) sym_sizes half AD ltac:(auto) ltac:(lia)) with (e := e) as (tol & T & B); [|exact He|].
  { intros u CO. assert (L : 0 < 1) by lra.
    destruct (coexisting_tangent (fun i => i) weak_chi sym_sizes L L eq_refl 2 u 0%nat 1%nat CO) as (A1 & A2 & A3); [lia|lia|].
    destruct (coexisting_tangent (fun i => i) weak_chi sym_sizes L L eq_refl 2 u 1%nat 0%nat CO) as (B1 & B2 & _); [lia|lia|].
    assert (E : u 0%nat 0%nat = u 1%nat 0%nat).
    {
      assert (C : repulsion weak_chi (fun i => i) <= critical_repulsion sym_sizes).
      { rewrite sqrt_one_critical. unfold repulsion, weak_chi. cbn. lra. }
      rewrite critical_eq in C. exact (below_critical _ _ _ _ _ L L (u 0%nat 0%nat) (u 1%nat 0%nat) A1 B1 C A3). }
    intros [|[|c]] Hc; [exact E|lra|lia]. }
  exists tol. split; [exact T|]. split.
  - intros f a t i f' ph d HS HE EN H HD W HM p c Hp Hc. exact (B nat ops0 f a t i f' ph d HS HE EN H HD W HM p c Hp Hc).
  - set (f := pair_finder weak_chi (can_compiled 2 half) (fun _ _ => 1 / 2) weak_mu).
    destruct (pair_run weak_chi (can_compiled 2 half) (fun _ _ => 1 / 2) weak_mu tol) as (f' & ph & d & H & HD & _ & W & V); [eapply builtin_total_ig_can; reflexivity| |exact T|].
    { apply pair_fixed; try (intros; lra).
      - intros. unfold weak_chi. now rewrite Nat.eqb_sym.
      - intros m Hm. apply potentials_mu; [|intros; lra]. destruct AD as (_ & A & A' & _). split; cbn; [intros i Hi; specialize (A' i Hi); lra|auto]. }
    exists f, f', ph, d. split; [split; [exact ops0_contract|cbn; lra|reflexivity|now constructor|constructor]|].
    split; [reflexivity|]. split; [reflexivity|]. split; [exact H|]. split; [exact HD|]. split; [revert W; apply within_le; lra|].
    intros c Hc. rewrite (pair_means _ _ _ _ _ _ c H eq_refl Hc (fun p Hp => proj1 (V p Hp))).
    rewrite (proj2 (V 0%nat ltac:(lia)) c Hc), (proj2 (V 1%nat ltac:(lia)) c Hc). unfold half.
    replace ((1 / 2 + 1 / 2) / 2 - 1 / 2) with 0 by field. rewrite Rabs_R0. lra.
Qed.
