(** PropertiesAccuracy.v -- how close the returned phases are to exact
    coexistence (C92). *)

From Coquelicot Require Import Coquelicot.
From Coq Require Import Reals Lra Lia List Bool Arith ZArith Classical FunctionalExtensionality.
From Verif Require Import Base ModelCommon ModelParts ModelKernel ModelPhases ModelFinder ProofsKernel ProofsParts ProofsSteps
  ProofsHistory ProofsRun ProofsRun2 ModelFreeEnergy ProofsFreeEnergy Spec Examples PropertiesKernel PropertiesRun PropertiesFreeEnergy
  PropertiesConstraints ProofsEquilibrium PropertiesEquilibrium PropertiesConvex PropertiesEnsembles PropertiesPartition ProofsCompact ProofsBinary PropertiesBinary.
Import ListNotations.
Open Scope R_scope.

(* ------------------------------------------------------------------ *)
(** * Vocabulary *)

(** [N] incompressible compositions with the same chemical potentials *)
Definition coexisting (F : fe) (N : nat) (u : nat -> vec) : Prop :=
  exists mu, forall p, (p < N)%nat ->
    (forall c, (c < fe_nc F)%nat -> 0 < u p c) /\ rsum (fe_nc F) (u p) = 1 /\ potentials F (u p) mu.

(** which together, with relative volumes [w], have the mean composition [pm] *)
Definition equilibrium (F : fe) (N : nat) (pm : vec) (u : nat -> vec) (w : vec) : Prop :=
  coexisting F N u /\ (forall p, (p < N)%nat -> 0 <= w p) /\ rsum N w = 1 /\
  forall c, (c < fe_nc F)%nat -> rsum N (fun p => w p * u p c) = pm c.

(* ------------------------------------------------------------------ *)
(** * Continuity of the chemical potentials *)

Lemma mu_cont n F (at_ : nat -> nat) t i : (forall c, (c < fe_nc F)%nat -> (at_ c < n)%nat) ->
  (forall c, (c < fe_nc F)%nat -> 0 < t (at_ c)) -> (i < fe_nc F)%nat ->
  cont n (fun z => mu_of F (fun c => z (at_ c)) i) t.
Proof.
  intros HB HP Hi. unfold mu_of.
  assert (PR : forall c, (c < fe_nc F)%nat -> cont n (fun z => z (at_ c)) t) by (intros c Hc; apply cont_proj; auto).
  assert (LN : forall c, (c < fe_nc F)%nat -> cont n (fun z => ln (z (at_ c))) t) by (intros c Hc; apply (cont_ln n (fun z => z (at_ c))); auto).
  assert (DF : forall c, (c < fe_nc F)%nat -> cont n (fun z => dfh (fe_nc F) (fe_chis F) (fe_sizes F) (fun c => z (at_ c)) c) t).
  { intros c Hc. unfold dfh. apply cont_plus.
    - apply (cont_div n (fun z => ln (z (at_ c)) + 1)). apply cont_plus; [auto|apply cont_const].
    - apply (cont_rsum n (fe_nc F) (fun j z => fe_chis F c j * z (at_ j))). intros j Hj. apply cont_scal. auto. }
  apply cont_plus; [|auto]. apply cont_minus.
  - unfold fh. apply cont_plus.
    + apply (cont_rsum n (fe_nc F) (fun c z => z (at_ c) * ln (z (at_ c)) / fe_sizes F c)). intros c Hc.
      apply (cont_div n (fun z => z (at_ c) * ln (z (at_ c)))). apply cont_mult; auto.
    + apply (cont_scal n (1 / 2) (fun z => rsum (fe_nc F) (fun c => rsum (fe_nc F) (fun j => fe_chis F c j * z (at_ c) * z (at_ j))))).
      apply (cont_rsum n (fe_nc F) (fun c z => rsum (fe_nc F) (fun j => fe_chis F c j * z (at_ c) * z (at_ j)))). intros c Hc.
      apply (cont_rsum n (fe_nc F) (fun j z => fe_chis F c j * z (at_ c) * z (at_ j))). intros j Hj.
      apply (cont_mult n (fun z => fe_chis F c j * z (at_ c)) (fun z => z (at_ j))); [apply cont_scal|]; auto.
  - apply (cont_rsum n (fe_nc F) (fun c z => z (at_ c) * dfh (fe_nc F) (fe_chis F) (fe_sizes F) (fun c => z (at_ c)) c)). intros c Hc.
    apply cont_mult; auto.
Qed.

(* ------------------------------------------------------------------ *)
(** * Any collection of phases *)

Section Phases.
Variables (F : fe) (N : nat) (kap : vec).
Hypothesis (WF : wf_fe F) (KP : forall c, (c < fe_nc F)%nat -> 0 < kap c).
Notation nc := (fe_nc F).

(** where fraction [c] of phase [p], and (at [c = nc]) its volume, are kept *)
Definition at_ (p c : nat) : nat := (p * S nc + c)%nat.
Definition store (x : nat -> vec) (w : vec) : vec :=
  fun k => let c := (k mod S nc)%nat in let p := (k / S nc)%nat in if Nat.ltb c nc then x p c else w p.
Definition lows : vec := fun k => let c := (k mod S nc)%nat in if Nat.ltb c nc then kap c else 0.
Definition highs : vec := fun k => 2.

Lemma at_bound p c : (p < N)%nat -> (c <= nc)%nat -> (at_ p c < N * S nc)%nat.
Proof using. intros Hp Hc. unfold at_. nia. Qed.
Lemma at_mod p c : (c <= nc)%nat -> (at_ p c mod S nc = c)%nat.
Proof using. intros Hc. unfold at_. rewrite Nat.add_comm, Nat.mod_add by lia. apply Nat.mod_small. lia. Qed.
Lemma at_div p c : (c <= nc)%nat -> (at_ p c / S nc = p)%nat.
Proof using. intros Hc. unfold at_. rewrite Nat.add_comm, Nat.div_add by lia. rewrite Nat.div_small by lia. reflexivity. Qed.
Lemma store_frac x w p c : (c < nc)%nat -> store x w (at_ p c) = x p c.
Proof using. intros Hc. unfold store. rewrite at_mod, at_div by lia. cbv zeta. rewrite (proj2 (Nat.ltb_lt c nc) Hc). reflexivity. Qed.
Lemma store_vol x w p : store x w (at_ p nc) = w p.
Proof using. unfold store. rewrite at_mod, at_div by lia. cbv zeta. rewrite Nat.ltb_irrefl. reflexivity. Qed.
Lemma lows_frac p c : (c < nc)%nat -> lows (at_ p c) = kap c.
Proof using. intros Hc. unfold lows. rewrite at_mod by lia. cbv zeta. rewrite (proj2 (Nat.ltb_lt c nc) Hc). reflexivity. Qed.
Lemma lows_vol p : lows (at_ p nc) = 0.
Proof using. unfold lows. rewrite at_mod by lia. cbv zeta. rewrite Nat.ltb_irrefl. reflexivity. Qed.

Lemma index_cases k : (k < N * S nc)%nat -> exists p c, (p < N)%nat /\ (c <= nc)%nat /\ k = at_ p c.
Proof using.
  intros Hk. exists (k / S nc)%nat, (k mod S nc)%nat. split; [apply Nat.div_lt_upper_bound; lia|].
  pose proof (Nat.mod_upper_bound k (S nc) ltac:(lia)). split; [lia|]. unfold at_. rewrite (Nat.div_mod k (S nc)) at 1 by lia. lia.
Qed.

(** the equations of coexistence *)
Inductive balance : (vec -> R) -> Prop :=
| b_total p : (p < N)%nat -> balance (fun z => rsum nc (fun c => z (at_ p c)) - 1)
| b_mu p r c : (p < N)%nat -> (r < N)%nat -> (c < nc)%nat ->
    balance (fun z => mu_of F (fun c => z (at_ p c)) c - mu_of F (fun c => z (at_ r c)) c).
(** and of conservation *)
Inductive lever (pm : vec) : (vec -> R) -> Prop :=
| l_total : lever pm (fun z => rsum N (fun p => z (at_ p nc)) - 1)
| l_mean c : (c < nc)%nat -> lever pm (fun z => rsum N (fun p => z (at_ p nc) * z (at_ p c)) - pm c).

Lemma in_positive t p c : inbox (N * S nc) lows highs t -> (p < N)%nat -> (c < nc)%nat -> 0 < t (at_ p c).
Proof using KP. intros H Hp Hc. destruct (H (at_ p c)) as (L & _); [apply at_bound; lia|]. rewrite lows_frac in L by exact Hc. specialize (KP c Hc). lra. Qed.

Lemma balance_cont g t : balance g -> inbox (N * S nc) lows highs t -> cont (N * S nc) g t.
Proof using KP.
  intros [p Hp|p r c Hp Hr Hc] HB.
  - apply cont_minus; [|apply cont_const]. apply (cont_rsum _ nc (fun c z => z (at_ p c))). intros c Hc. apply cont_proj, at_bound; lia.
  - apply cont_minus; apply (mu_cont _ F (at_ _)); auto; intros; try (apply at_bound; lia); now apply in_positive.
Qed.

Lemma lever_cont pm g t : lever pm g -> cont (N * S nc) g t.
Proof using.
  intros [|c Hc].
  - apply cont_minus; [|apply cont_const]. apply (cont_rsum _ N (fun p z => z (at_ p nc))). intros p Hp. apply cont_proj, at_bound; lia.
  - apply cont_minus; [|apply cont_const]. apply (cont_rsum _ N (fun p z => z (at_ p nc) * z (at_ p c))). intros p Hp.
    apply cont_mult; apply cont_proj, at_bound; lia.
Qed.

Lemma balanced t : inbox (N * S nc) lows highs t -> (forall g, balance g -> g t = 0) -> coexisting F N (fun p c => t (at_ p c)).
Proof using WF KP.
  intros HB HZ. exists (mu_of F (fun c => t (at_ 0 c))). intros p Hp.
  split; [intros c Hc; now apply in_positive|]. split; [pose proof (HZ _ (b_total p Hp)); cbn beta in *; lra|].
  apply (potentials_ext F _ (mu_of F (fun c => t (at_ p c)))).
  - intros c Hc. pose proof (HZ _ (b_mu p 0%nat c Hp ltac:(lia) Hc)) as E. cbn beta in E. lra.
  - apply potentials_mu; [exact WF|]. intros c Hc. now apply in_positive.
Qed.

Lemma balance_small x w d : (forall p c, (p < N)%nat -> (c < nc)%nat -> kap c <= x p c) ->
  (forall p, (p < N)%nat -> Rabs (rsum nc (x p) - 1) <= d) ->
  (forall p r mu mu' c, (p < N)%nat -> (r < N)%nat -> (c < nc)%nat -> potentials F (x p) mu -> potentials F (x r) mu' -> Rabs (mu c - mu' c) <= d) ->
  forall g, balance g -> Rabs (g (store x w)) <= d.
Proof using WF KP.
  intros HK HS HM g [p Hp|p r c Hp Hr Hc].
  - rewrite (rsum_ext nc _ (x p)); [now apply HS|]. intros c Hc. now apply store_frac.
  - rewrite (mu_of_ext F (fun c => store x w (at_ p c)) (x p)), (mu_of_ext F (fun c => store x w (at_ r c)) (x r));
      try exact Hc; try (intros j Hj; now apply store_frac).
    apply (HM p r); auto; apply potentials_mu; auto; intros j Hj; specialize (KP j Hj); [specialize (HK p j Hp Hj)|specialize (HK r j Hr Hj)]; lra.
Qed.

(** Compositions, bounded away from zero, which nearly coexist are close to
    compositions which coexist exactly. *)
Lemma near_coexistence : forall e, 0 < e -> exists d, 0 < d /\ forall x : nat -> vec,
  (forall p c, (p < N)%nat -> (c < nc)%nat -> kap c <= x p c <= 2) ->
  (forall p, (p < N)%nat -> Rabs (rsum nc (x p) - 1) <= d) ->
  (forall p r mu mu' c, (p < N)%nat -> (r < N)%nat -> (c < nc)%nat -> potentials F (x p) mu -> potentials F (x r) mu' -> Rabs (mu c - mu' c) <= d) ->
  exists u, coexisting F N u /\ forall p c, (p < N)%nat -> (c < nc)%nat -> Rabs (x p c - u p c) < e.
Proof using WF KP.
  intros e He. destruct (approximate (N * S nc) lows highs balance balance_cont e He) as (d & D & H).
  exists d. split; [exact D|]. intros x HK HS HM.
  destruct (H (store x (fun _ => 0))) as (t & T1 & T2 & T3).
  - intros k Hk. destruct (index_cases k Hk) as (p & c & Hp & Hc & ->). unfold highs. destruct (Nat.eq_dec c nc) as [->|N0].
    + rewrite lows_vol, store_vol. lra.
    + rewrite lows_frac, store_frac by lia. apply HK; lia.
  - apply balance_small; auto. intros p c Hp Hc. apply HK; auto.
  - exists (fun p c => t (at_ p c)). split; [now apply balanced|]. intros p c Hp Hc.
    specialize (T2 (at_ p c) ltac:(apply at_bound; lia)). now rewrite store_frac in T2.
Qed.

(** The same with conservation. *)
Lemma near_equilibrium pm : forall e, 0 < e -> exists d, 0 < d /\ forall (x : nat -> vec) (w : vec),
  (forall p c, (p < N)%nat -> (c < nc)%nat -> kap c <= x p c <= 2) ->
  (forall p, (p < N)%nat -> 0 <= w p <= 1) -> rsum N w = 1 ->
  (forall p, (p < N)%nat -> Rabs (rsum nc (x p) - 1) <= d) ->
  (forall p r mu mu' c, (p < N)%nat -> (r < N)%nat -> (c < nc)%nat -> potentials F (x p) mu -> potentials F (x r) mu' -> Rabs (mu c - mu' c) <= d) ->
  (forall c, (c < nc)%nat -> Rabs (rsum N (fun p => w p * x p c) - pm c) <= d) ->
  exists u v, equilibrium F N pm u v /\ (forall p c, (p < N)%nat -> (c < nc)%nat -> Rabs (x p c - u p c) < e) /\
    forall p, (p < N)%nat -> Rabs (w p - v p) < e.
Proof using WF KP.
  intros e He. destruct (approximate (N * S nc) lows highs (fun g => balance g \/ lever pm g)) with (e := e) as (d & D & H); [|exact He|].
  { intros g t [Hg|Hg] Ht; [now apply balance_cont|now apply lever_cont with pm]. }
  exists d. split; [exact D|]. intros x w HK HW H1 HS HM HL.
  destruct (H (store x w)) as (t & T1 & T2 & T3).
  - intros k Hk. destruct (index_cases k Hk) as (p & c & Hp & Hc & ->). unfold highs. destruct (Nat.eq_dec c nc) as [->|N0].
    + rewrite lows_vol, store_vol. specialize (HW p Hp). lra.
    + rewrite lows_frac, store_frac by lia. apply HK; lia.
  - intros g [Hg|[|c Hc]].
    + revert g Hg. apply balance_small; auto. intros p c Hp Hc. apply HK; auto.
    + rewrite (rsum_ext N _ w); [|intros p Hp; apply store_vol]. rewrite H1, Rminus_diag_eq, Rabs_R0; auto. lra.
    + rewrite (rsum_ext N _ (fun p => w p * x p c)); [now apply HL|]. intros p Hp. now rewrite store_vol, store_frac.
  - exists (fun p c => t (at_ p c)), (fun p => t (at_ p nc)). split; [|split].
    + split; [apply balanced; [exact T1|]; intros g Hg; apply T3; now left|]. split; [|split].
      * intros p Hp. destruct (T1 (at_ p nc)) as (L & _); [apply at_bound; lia|]. now rewrite lows_vol in L.
      * pose proof (T3 _ (or_intror (l_total pm))) as E. cbn beta in E. lra.
      * intros c Hc. pose proof (T3 _ (or_intror (l_mean pm c Hc))) as E. cbn beta in E. lra.
    + intros p c Hp Hc. specialize (T2 (at_ p c) ltac:(apply at_bound; lia)). now rewrite store_frac in T2.
    + intros p Hp. specialize (T2 (at_ p nc) ltac:(apply at_bound; lia)). now rewrite store_vol in T2.
Qed.

End Phases.

(* ------------------------------------------------------------------ *)
(** * What the errors of a run say about the returned phases *)

Lemma one_le n (f : vec) i : (forall j, (j < n)%nat -> 0 <= f j) -> (i < n)%nat -> f i <= rsum n f.
Proof.
  induction n as [|n IH]; intros P Hi; [lia|]. cbn [rsum]. assert (0 <= rsum n f) by (apply rsum_nonneg; intros; apply P; lia).
  destruct (Nat.eq_dec i n) as [->|X]; [lra|]. specialize (IH ltac:(intros; apply P; lia) ltac:(lia)). specialize (P n ltac:(lia)). lra.
Qed.

Lemma extremes n (A : mat) : (0 < n)%nat -> exists lo hi, smallest n A lo /\ largest n A hi.
Proof.
  intros Hn.
  assert (W : forall (B : mat), exists hi, largest n B hi).
  { intros B.
    assert (ROW : forall i m, (0 < m)%nat -> exists j, (j < m)%nat /\ forall j', (j' < m)%nat -> B i j' <= B i j).
    { intros i m. induction m as [|[|m] IH]; intros Hm; [lia| |].
      - exists 0%nat. split; [lia|]. intros j' Hj. replace j' with 0%nat by lia. lra.
      - destruct IH as (j & Hj & M); [lia|]. destruct (Rle_dec (B i j) (B i (S m))) as [L|L].
        + exists (S m). split; [lia|]. intros j' Hj'. destruct (Nat.eq_dec j' (S m)) as [->|X]; [lra|]. specialize (M j' ltac:(lia)). lra.
        + exists j. split; [lia|]. intros j' Hj'. destruct (Nat.eq_dec j' (S m)) as [->|X]; [lra|]. apply M. lia. }
    assert (ALL : forall m, (0 < m)%nat -> exists i j, (i < m)%nat /\ (j < n)%nat /\ forall i' j', (i' < m)%nat -> (j' < n)%nat -> B i' j' <= B i j).
    { intros m. induction m as [|[|m] IH]; intros Hm; [lia| |].
      - destruct (ROW 0%nat n Hn) as (j & Hj & M). exists 0%nat, j. split; [lia|]. split; [exact Hj|]. intros i' j' Hi Hj'.
        replace i' with 0%nat by lia. auto.
      - destruct IH as (i & j & Hi & Hj & M); [lia|]. destruct (ROW (S m) n Hn) as (j2 & Hj2 & M2).
        destruct (Rle_dec (B i j) (B (S m) j2)) as [L|L].
        + exists (S m), j2. split; [lia|]. split; [exact Hj2|]. intros i' j' Hi' Hj'. destruct (Nat.eq_dec i' (S m)) as [->|X]; [auto|].
          specialize (M i' j' ltac:(lia) Hj'). lra.
        + exists i, j. split; [lia|]. split; [exact Hj|]. intros i' j' Hi' Hj'. destruct (Nat.eq_dec i' (S m)) as [->|X]; [|apply M; lia || exact Hj'].
          specialize (M2 j' Hj'). lra. }
    destruct (ALL n Hn) as (i & j & Hi & Hj & M). exists (B i j). split; [exists i, j; auto|exact M]. }
  destruct (W A) as (hi & HI). destruct (W (fun i j => - A i j)) as (lo & (i & j & Hi & Hj & E) & M).
  exists (- lo), hi. split; [|exact HI]. split; [exists i, j; split; [exact Hi|split; [exact Hj|lra]]|].
  intros r s Hr Hs. specialize (M r s Hr Hs). lra.
Qed.

Lemma shortest nc (sizes : vec) : (forall i, (i < nc)%nat -> 0 < sizes i) -> exists lmin, 0 < lmin /\ forall i, (i < nc)%nat -> lmin <= sizes i.
Proof.
  intros Hs. induction nc as [|n IH].
  - exists 1. split; [lra|]. intros; lia.
  - destruct IH as (y & Hy & B); [intros; apply Hs; lia|]. exists (Rmin y (sizes n)). split.
    + apply Rmin_glb_lt; [lra|]. apply Hs; lia.
    + intros j Hj. destruct (Nat.eq_dec j n) as [->|X]; [apply Rmin_r|]. eapply Rle_trans; [apply Rmin_l|]. apply B. lia.
Qed.

(** the run starts from, and uses, these parameters *)
Record solves {G} (ops : rng_ops G) (f : finder G cstate) nc nf rho chis sh sizes : Prop := {
  so_rng : rng_contract ops;
  so_thr : 0 <= m_thr (f_par f);
  so_nc : f_nc f = nc;
  so_mix : mixture (kernel_of f) nc nf rho chis sh sizes;
  so_idle : Forall idle (v_cons (f_k f))
}.
(** all errors reported after the run are at most [tol] *)
Definition within (d : diag) (tol : R) : Prop := d_incomp d <= tol /\ d_omega d <= tol /\ d_Js d <= tol.

Lemma run_balanced nc nf rho chis sh sizes x : admissible nc nf chis sizes x ->
  exists K, 0 < K /\ forall (G : Type) (ops : rng_ops G) (f : finder G cstate) a t i f' ph d tol,
    solves ops f nc nf rho chis sh sizes -> any_ensemble (kernel_of f) nc x -> run ops f a t i = (f', Ok ph) -> f_diag f' = Some d ->
    within d tol ->
    (forall p c, (p < f_np f)%nat -> (c < nc)%nat -> 0 < frac ph p c) /\
    (forall p, (p < f_np f)%nat -> Rabs (rsum nc (frac ph p) - 1) <= tol) /\
    (forall p r mu mu' c, (p < f_np f)%nat -> (r < f_np f)%nat -> (c < nc)%nat ->
       potentials (fe_of nc rho chis sizes) (frac ph p) mu -> potentials (fe_of nc rho chis sizes) (frac ph r) mu' -> Rabs (mu c - mu' c) <= K * tol).
Proof.
  intros HA. destruct (extremes nf chis (proj1 HA)) as (lo & hi & Hlo & Hhi).
  exists (2 + INR nf + Rabs (shifted_sum nf chis lo sh)).
  pose proof (pos_INR nf) as P1. pose proof (Rabs_pos (shifted_sum nf chis lo sh)) as P2.
  split; [lra|]. intros G ops f a t i f' ph d tol [HR Ht <- HM HI] HE H HD (T1 & T2 & T3).
  destruct (run_columns ops f a t i f' ph d HR Ht H HD) as (k1 & k' & nv & rep & EI & HI1 & D1 & D2 & D3 & HC).
  apply (fun F => F HI) in HI1.
  destruct (step_fractions _ _ _ _ _ _ _ _ _ _ _ _ HM HE HA Ht EI) as (_ & WF & N1 & N2 & N3 & HF).
  destruct (C11_step_bound _ _ _ _ _ _ _ _ _ _ _ _ _ HM HE HA Hlo Ht HI1 EI) as (mu0 & Q1 & Q2).
  assert (EXT : forall p m, (forall c, (c < f_nc f)%nat -> frac ph p c = v_phis_comp k' c m) ->
    forall mu, potentials (fe_of (f_nc f) rho chis sizes) (frac ph p) mu ->
    potentials (fe_of (f_nc f) rho chis sizes) (fun c => v_phis_comp k' c m) mu).
  { intros p m E mu P. unfold potentials in *. cbn [fe_of fe_nc] in *. rewrite <- P. f_equal. f_equal. apply listed_ext. intros c Hc. symmetry. auto. }
  split; [|split].
  - intros p c Hp Hc. destruct (HC p Hp) as (m & Hm & Lm & Em). rewrite Em by exact Hc. apply (HF m Hm Lm), Hc.
  - intros p Hp. destruct (HC p Hp) as (m & Hm & Lm & Em). rewrite (rsum_ext _ _ _ Em). destruct (HF m Hm Lm) as (_ & S). lra.
  - intros p r mu mu' c Hp Hr Hc M1 M2.
    destruct (HC p Hp) as (m & Hm & Lm & Em), (HC r Hr) as (n & Hn & Ln & En).
    rewrite (potentials_inj _ _ _ _ (EXT p m Em mu M1) (Q1 m Hm Lm) c Hc), (potentials_inj _ _ _ _ (EXT r n En mu' M2) (Q1 n Hn Ln) c Hc).
    eapply Rle_trans; [apply Q2; auto|]. rewrite D1, D2, D3 in *. nra.
Qed.

(** in the canonical ensemble no fraction is below a bound that depends on the
    parameters only *)
Lemma run_present nc nf rho chis sh sizes pm : admissible nc nf chis sizes pm ->
  exists kap : vec, (forall c, (c < nc)%nat -> 0 < kap c) /\ forall (G : Type) (ops : rng_ops G) (f : finder G cstate) a t i f' ph d,
    solves ops f nc nf rho chis sh sizes -> f_ensemble f = can_compiled nc pm -> run ops f a t i = (f', Ok ph) -> f_diag f' = Some d ->
    within d (1 / 2) -> forall p c, (p < f_np f)%nat -> (c < nc)%nat -> kap c <= frac ph p c.
Proof.
  intros HA. destruct (extremes nf chis (proj1 HA)) as (lo & hi & Hlo & Hhi).
  destruct (shortest nc sizes) as (lmin & L0 & LM); [apply HA|].
  exists (fun c => pm c * exp (- (sizes c * leeway nf chis lo hi sh lmin (1 / 2) (1 / 2)))). split.
  { intros c Hc. apply Rmult_lt_0_compat; [apply HA, Hc|apply exp_pos]. }
  intros G ops f a t i f' ph d [HR Ht <- HM HI] HE H HD (T1 & T2 & T3) p c Hp Hc.
  assert (HE' : any_ensemble (kernel_of f) (f_nc f) pm) by (left; exact HE).
  destruct (C88_run ops f a t i f' ph d nf rho chis sh sizes pm lo hi lmin HR Ht HM HE' HA Hlo Hhi L0 LM HI H HD ltac:(lra)) as (_ & B).
  specialize (B HE p c Hp Hc). cbv beta zeta in B.
  eapply Rle_trans; [|apply B]. apply Rmult_le_compat_l; [left; apply HA, Hc|]. apply exp_mono. apply Ropp_le_contravar.
  apply Rmult_le_compat_l; [left; apply HA, Hc|]. unfold leeway.
  destruct (run_columns ops f a t i f' ph d HR Ht H HD) as (k1 & k' & nv & rep & EI & _ & D1 & D2 & D3 & _).
  destruct (step_fractions _ _ _ _ _ _ _ _ _ _ _ _ HM HE' HA Ht EI) as (_ & _ & N1 & N2 & _).
  rewrite D1, D2 in *.
  pose proof (pos_INR nf) as P1. pose proof (Rabs_pos (shifted_sum nf chis lo sh)) as P2. pose proof (Rabs_pos lo). pose proof (Rabs_pos hi).
  apply Rplus_le_compat.
  - apply Rmult_le_compat_l; [lra|]. repeat apply Rplus_le_compat; try lra; apply Rmult_le_compat_l; lra.
  - unfold Rdiv. apply Rmult_le_compat_r; [left; now apply Rinv_0_lt_compat|]. apply ln_le.
    + apply Rmult_lt_0_compat; [lra|]. apply Rinv_0_lt_compat. lra.
    + apply Rmult_le_compat; try lra; [left; apply Rinv_0_lt_compat; lra|]. apply Rinv_le_contravar; lra.
Qed.

(* ------------------------------------------------------------------ *)
(** * C92 *)

(** relative volume of a returned phase *)
Definition share (ph : phases) (n p : nat) : R := vol ph p / rsum n (vol ph).

(** Any two phases: the tolerance depends neither on the number of compartments
    nor on the state. *)
Theorem C92_pair nc nf rho chis sh sizes pm : admissible nc nf chis sizes pm -> (forall i, (i < nc)%nat -> (rho i < nf)%nat) ->
  forall e, 0 < e -> exists tol, 0 < tol /\
  forall G (ops : rng_ops G) (f : finder G cstate) a t i f' ph d,
    solves ops f nc nf rho chis sh sizes -> f_ensemble f = can_compiled nc pm ->
    run ops f a t i = (f', Ok ph) -> f_diag f' = Some d -> within d tol ->
    forall p r, (p < f_np f)%nat -> (r < f_np f)%nat ->
    exists u, coexisting (fe_of nc rho chis sizes) 2 u /\
      forall c, (c < nc)%nat -> Rabs (frac ph p c - u 0%nat c) < e /\ Rabs (frac ph r c - u 1%nat c) < e.
Proof.
  intros HA HR e He. set (F := fe_of nc rho chis sizes).
  assert (WF : wf_fe F).
  { split; cbn; [intros i Hi Z; pose proof (proj1 (proj2 (proj2 HA)) i Hi); lra|]. intros i j Hi Hj. apply HA; auto. }
  destruct (run_balanced nc nf rho chis sh sizes pm HA) as (K & K0 & B).
  destruct (run_present nc nf rho chis sh sizes pm HA) as (kap & KP & PR).
  destruct (near_coexistence F 2 kap WF KP e He) as (d0 & D0 & NE).
  exists (Rmin (1 / 2) (Rmin d0 (d0 / K))).
  assert (DK : 0 < d0 / K) by now apply Rdiv_lt_0_compat.
  split; [repeat apply Rmin_glb_lt; lra|].
  intros G ops f a t i f' ph d HS HE H HD W p r Hp Hr. set (tol := Rmin _ _) in W.
  assert (T1 : tol <= 1 / 2) by apply Rmin_l.
  assert (T2 : tol <= d0) by (eapply Rle_trans; [apply Rmin_r|apply Rmin_l]).
  assert (T3 : K * tol <= d0).
  { apply (Rmult_le_reg_l (/ K)); [now apply Rinv_0_lt_compat|]. rewrite <- Rmult_assoc, Rinv_l, Rmult_1_l by lra.
    eapply Rle_trans; [apply Rmin_r|]. eapply Rle_trans; [apply Rmin_r|]. right. unfold Rdiv. ring. }
  destruct (B G ops f a t i f' ph d tol HS (or_introl HE) H HD W) as (B1 & B2 & B3).
  assert (PR' := PR G ops f a t i f' ph d HS HE H HD ltac:(unfold within in *; lra)).
  destruct (NE (fun k => frac ph (if Nat.eqb k 0 then p else r))) as (u & U1 & U2).
  - intros k c Hk Hc. assert (X : exists s, (s < f_np f)%nat /\ s = if Nat.eqb k 0 then p else r) by (destruct (Nat.eqb k 0); eauto).
    destruct X as (s & Hs & <-). split; [now apply PR'|].
    assert (S : frac ph s c <= rsum nc (frac ph s)) by (apply one_le; [intros j Hj; left; now apply B1|exact Hc]).
    specialize (B2 s Hs). apply Rabs_le_inv in B2. lra.
  - intros k Hk. eapply Rle_trans; [|exact T2]. apply B2. destruct (Nat.eqb k 0); auto.
  - intros k k2 mu mu' c Hk Hk2 Hc M1 M2. eapply Rle_trans; [|exact T3]. refine (B3 _ _ mu mu' c _ _ Hc M1 M2); [destruct (Nat.eqb k 0)|destruct (Nat.eqb k2 0)]; auto.
  - exists u. split; [exact U1|]. intros c Hc. split; [apply (U2 0%nat c); lia || exact Hc|apply (U2 1%nat c); lia || exact Hc].
Qed.

(** All phases together with their volumes: if moreover the mean fractions of
    the returned phases are within [tol] of [phi_means], the phases are close to
    an exact equilibrium with the mean composition [phi_means]. *)
Theorem C92_run N nc nf rho chis sh sizes pm : admissible nc nf chis sizes pm -> (forall i, (i < nc)%nat -> (rho i < nf)%nat) -> (0 < N)%nat ->
  forall e, 0 < e -> exists tol, 0 < tol /\
  forall G (ops : rng_ops G) (f : finder G cstate) a t i f' ph d,
    solves ops f nc nf rho chis sh sizes -> f_ensemble f = can_compiled nc pm -> f_np f = N ->
    run ops f a t i = (f', Ok ph) -> f_diag f' = Some d -> within d tol ->
    (forall c, (c < nc)%nat -> Rabs (mean_fraction ph c - pm c) <= tol) ->
    exists u w, equilibrium (fe_of nc rho chis sizes) N pm u w /\
      (forall p c, (p < N)%nat -> (c < nc)%nat -> Rabs (frac ph p c - u p c) < e) /\
      (forall p, (p < N)%nat -> Rabs (share ph N p - w p) < e).
Proof.
  intros HA HR HN e He. set (F := fe_of nc rho chis sizes).
  assert (WF : wf_fe F).
  { split; cbn; [intros i Hi Z; pose proof (proj1 (proj2 (proj2 HA)) i Hi); lra|]. intros i j Hi Hj. apply HA; auto. }
  destruct (run_balanced nc nf rho chis sh sizes pm HA) as (K & K0 & B).
  destruct (run_present nc nf rho chis sh sizes pm HA) as (kap & KP & PR).
  destruct (near_equilibrium F N kap WF KP pm e He) as (d0 & D0 & NE).
  exists (Rmin (1 / 2) (Rmin d0 (d0 / K))).
  assert (DK : 0 < d0 / K) by now apply Rdiv_lt_0_compat.
  split; [repeat apply Rmin_glb_lt; lra|].
  intros G ops f a t i f' ph d HS HE <- H HD W HMean. set (tol := Rmin _ _) in W, HMean.
  assert (T1 : tol <= 1 / 2) by apply Rmin_l.
  assert (T2 : tol <= d0) by (eapply Rle_trans; [apply Rmin_r|apply Rmin_l]).
  assert (T3 : K * tol <= d0).
  { apply (Rmult_le_reg_l (/ K)); [now apply Rinv_0_lt_compat|]. rewrite <- Rmult_assoc, Rinv_l, Rmult_1_l by lra.
    eapply Rle_trans; [apply Rmin_r|]. eapply Rle_trans; [apply Rmin_r|]. right. unfold Rdiv. ring. }
  destruct (B G ops f a t i f' ph d tol HS (or_introl HE) H HD W) as (B1 & B2 & B3).
  assert (PR' := PR G ops f a t i f' ph d HS HE H HD ltac:(unfold within in *; lra)).
  assert (VP : forall p, (p < f_np f)%nat -> 0 < vol ph p).
  { intros p Hp. eapply Rle_lt_trans; [apply (so_thr _ _ _ _ _ _ _ _ HS)|].
    apply (C17_volumes ops f a t i f' ph (so_rng _ _ _ _ _ _ _ _ HS) (so_thr _ _ _ _ _ _ _ _ HS) H).
    unfold vol. apply nth_In. destruct (C17_shape ops f a t i f' ph H) as (-> & _). exact Hp. }
  assert (VS : 0 < rsum (f_np f) (vol ph)).
  { apply rsum_pos; [intros p Hp; left; auto|]. exists 0%nat. split; [exact HN|]. apply VP, HN. }
  assert (ME : forall c, (c < nc)%nat -> mean_fraction ph c = rsum (f_np f) (fun p => share ph (f_np f) p * frac ph p c)).
  { intros c Hc. pose proof H as H2. apply run_inv in H2. destruct H2 as (tr & inner & j & w & rep & n & J & phi & g & RF).
    rewrite <- (so_nc _ _ _ _ _ _ _ _ HS) in Hc.
    rewrite (mean_fraction_eq _ _ _ _ _ _ _ _ _ _ _ _ _ _ _ _ c RF Hc).
    destruct (run_vol_frac _ _ _ _ _ _ _ _ _ _ _ _ _ _ _ _ RF) as (EV & EF).
    rewrite (rsum_ext _ (fun p => share ph (f_np f) p * frac ph p c) (fun p => (vol ph p * frac ph p c) * / rsum (f_np f) (vol ph))).
    2: { intros p Hp. unfold share. field. lra. }
    rewrite rsum_scal_r. unfold Rdiv. f_equal; [|f_equal]; apply rsum_ext; intros p Hp; rewrite EV by exact Hp; [rewrite EF by auto|]; reflexivity. }
  destruct (NE (frac ph) (share ph (f_np f))) as (u & w & U1 & U2 & U3).
  - intros p c Hp Hc. split; [now apply PR'|].
    assert (S : frac ph p c <= rsum nc (frac ph p)) by (apply one_le; [intros j Hj; left; now apply B1|exact Hc]).
    specialize (B2 p Hp). apply Rabs_le_inv in B2. lra.
  - intros p Hp. unfold share. split.
    + left. apply Rdiv_lt_0_compat; auto.
    + apply (Rmult_le_reg_r (rsum (f_np f) (vol ph))); [exact VS|]. unfold Rdiv. rewrite Rmult_assoc, Rinv_l, Rmult_1_r, Rmult_1_l by lra.
      apply one_le; [intros j Hj; left; auto|exact Hp].
  - unfold share. rewrite (rsum_ext _ _ (fun p => vol ph p * / rsum (f_np f) (vol ph))) by reflexivity. rewrite rsum_scal_r. field. lra.
  - intros p Hp. eapply Rle_trans; [apply B2, Hp|exact T2].
  - intros p r mu mu' c Hp Hr Hc M1 M2. eapply Rle_trans; [|exact T3]. exact (B3 p r mu mu' c Hp Hr Hc M1 M2).
  - intros c Hc. rewrite <- ME by exact Hc. eapply Rle_trans; [apply HMean, Hc|exact T2].
  - exists u, w. auto.
Qed.

(** The same when [run] stops because of its tolerance, at a state whose
    predecessor had mean volume one. *)
Theorem C92_converged N nc nf rho chis sh sizes pm A : admissible nc nf chis sizes pm -> (forall i, (i < nc)%nat -> (rho i < nf)%nat) -> (0 < N)%nat ->
  forall e, 0 < e -> exists tol, 0 < tol /\
  forall G (ops : rng_ops G) (f : finder G cstate) a t i f' ph d tr inner w0,
    solves ops f nc nf rho chis sh sizes -> f_ensemble f = can_compiled nc pm -> f_np f = N ->
    m_thr (f_par f) < 1 -> 0 < m_ub (f_par f) -> 0 < m_acc_J (f_par f) <= A ->
    run ops f a t i = (f', Ok ph) -> f_diag f' = Some d ->
    schedule (opt a (m_max_steps (f_par f))) (opt i (m_interval (f_par f))) = Ok (tr, inner) -> d_steps d <> Z.of_nat (tr * inner) ->
    fsteps ops f (Z.to_nat (d_steps d) - 1) = Ok w0 -> mean_one f w0 ->
    opt t (m_tolerance (f_par f)) <= tol ->
    exists u w, equilibrium (fe_of nc rho chis sizes) N pm u w /\
      (forall p c, (p < N)%nat -> (c < nc)%nat -> Rabs (frac ph p c - u p c) < e) /\
      (forall p, (p < N)%nat -> Rabs (share ph N p - w p) < e).
Proof.
  intros HA HR HN e He. destruct (C92_run N nc nf rho chis sh sizes pm HA HR HN e He) as (tol & T0 & B).
  set (A' := Rabs A). pose proof (Rabs_pos A) as PA. fold A' in PA.
  assert (D : 0 < tol / (4 * A' + 1)) by (apply Rdiv_lt_0_compat; lra).
  exists (Rmin 1 (tol / (4 * A' + 1))). split; [apply Rmin_glb_lt; lra|].
  intros G ops f a t i f' ph d tr inner w0 HS HE EN Ht Hu (Ha & Ha2) H HD HSc HNS HW HO HT.
  apply (B G ops f a t i f' ph d); auto.
  - pose proof H as H2. apply run_inv in H2. destruct H2 as (tr' & inner' & j & w & rep & n & J & phi & g & RF).
    rewrite (rf_f RF) in HD. injection HD as <-. cbn [d_steps d_Js d_omega d_incomp] in *.
    pose proof (rf_sched RF) as HS'. rewrite HSc in HS'. injection HS' as <- <-.
    destruct (rf_conv RF) as [X|HCv]; [congruence|]. apply converged_facts in HCv. destruct HCv as (_ & E1 & E2 & E3 & _).
    assert (HT' : opt t (m_tolerance (f_par f)) <= tol).
    { eapply Rle_trans; [exact HT|]. eapply Rle_trans; [apply Rmin_r|]. apply (Rmult_le_reg_r (4 * A' + 1)); [lra|].
      unfold Rdiv. rewrite Rmult_assoc, Rinv_l by lra. nra. }
    unfold within. cbn [d_Js d_omega d_incomp]. lra.
  - intros c Hc.
    assert (BE : builtin_entropy (f_entropy f) /\ s_comp (f_entropy f) = f_nc f).
    { rewrite (so_nc _ _ _ _ _ _ _ _ HS). change (f_entropy f) with (q_entropy (kernel_of f)). generalize (so_mix _ _ _ _ _ _ _ _ HS). clear.
      intros HM. destruct HM as [q n chis sh sizes F1 F2 F3|q nf npf chis sh sizes F1 F2 F3 F4].
      - rewrite F3. split; [left; eauto|reflexivity].
      - rewrite F4. split; [right; eauto|reflexivity]. }
    destruct BE as (BE & EC). rewrite <- (so_nc _ _ _ _ _ _ _ _ HS) in Hc.
    assert (HE' : f_ensemble f = can_compiled (f_nc f) pm) by (rewrite (so_nc _ _ _ _ _ _ _ _ HS); exact HE).
    assert (PX : forall i, (i < f_nc f)%nat -> 0 <= pm i) by (rewrite (so_nc _ _ _ _ _ _ _ _ HS); intros j Hj; left; apply HA, Hj).
    destruct (C18_mean_fraction_bound ops f a t i f' ph pm d tr inner w0 c (so_rng _ _ _ _ _ _ _ _ HS) (conj (so_thr _ _ _ _ _ _ _ _ HS) Ht)
      Hu Ha BE EC HE' PX H HD HSc HNS HW Hc) as (M & _). specialize (M HO).
    set (T := opt t (m_tolerance (f_par f))) in *.
    assert (T1 : T <= 1) by (eapply Rle_trans; [exact HT|apply Rmin_l]).
    assert (T2 : T * (4 * A' + 1) <= tol).
    { apply (Rmult_le_reg_r (/ (4 * A' + 1))); [apply Rinv_0_lt_compat; lra|]. rewrite Rmult_assoc, Rinv_r, Rmult_1_r by lra.
      eapply Rle_trans; [exact HT|apply Rmin_r]. }
    assert (A1 : A <= A') by apply Rle_abs.
    assert (TP : 0 < T).
    { pose proof H as H2. apply run_inv in H2. destruct H2 as (tr' & inner' & j & w & rep & n & J & phi & g & RF).
      rewrite (rf_f RF) in HD. injection HD as <-. cbn [d_steps] in *.
      pose proof (rf_sched RF) as HS'. rewrite HSc in HS'. injection HS' as <- <-.
      destruct (rf_conv RF) as [X|HCv]; [congruence|]. apply converged_facts in HCv. destruct HCv as (_ & E1 & _). fold T in E1.
      eapply Rle_lt_trans; [|exact E1].
      destruct (run_last _ _ _ _ _ _ _ _ _ _ _ _ _ _ _ _ RF) as (w1 & cc & k1 & nv & EW & EM & EI & Env & _).
      apply iterate_inv in EI. destruct EI as (? & ? & ? & ? & _ & _ & FF). rewrite (if_e_incomp FF). apply vmax_abs_nonneg. }
    eapply Rle_trans; [exact M|].
    assert (MN : Rmin (m_ub (f_par f)) (m_acc_J (f_par f) * T) <= A' * T).
    { eapply Rle_trans; [apply Rmin_r|]. apply Rmult_le_compat_r; lra. }
    assert (M0 : 0 <= Rmin (m_ub (f_par f)) (m_acc_J (f_par f) * T)) by (apply Rmin_glb; [lra|]; apply Rmult_le_pos; lra).
    set (mn := Rmin _ _) in *. clearbody mn. nra.
Qed.

(** If no two different compositions coexist, all phases are close to the mean
    composition. *)
Theorem C92_mixed N nc nf rho chis sh sizes pm : admissible nc nf chis sizes pm -> (forall i, (i < nc)%nat -> (rho i < nf)%nat) -> (0 < N)%nat ->
  (forall u, coexisting (fe_of nc rho chis sizes) 2 u -> forall c, (c < nc)%nat -> u 0%nat c = u 1%nat c) ->
  forall e, 0 < e -> exists tol, 0 < tol /\
  forall G (ops : rng_ops G) (f : finder G cstate) a t i f' ph d,
    solves ops f nc nf rho chis sh sizes -> f_ensemble f = can_compiled nc pm -> f_np f = N ->
    run ops f a t i = (f', Ok ph) -> f_diag f' = Some d -> within d tol ->
    (forall c, (c < nc)%nat -> Rabs (mean_fraction ph c - pm c) <= tol) ->
    forall p c, (p < N)%nat -> (c < nc)%nat -> Rabs (frac ph p c - pm c) < e.
Proof.
  intros HA HR HN HU e He. destruct (C92_run N nc nf rho chis sh sizes pm HA HR HN e He) as (tol & T0 & B).
  exists tol. split; [exact T0|]. intros G ops f a t i f' ph d HS HE EN H HD HW HM p c Hp Hc.
  destruct (B G ops f a t i f' ph d HS HE EN H HD HW HM) as (u & w & ((mu & CO) & W0 & W1 & WM) & U & _).
  cbn [fe_of fe_nc] in *. rewrite <- (WM c Hc).
  rewrite (rsum_ext N _ (fun r => w r * u p c)).
  - rewrite rsum_scal_r, W1, Rmult_1_l. now apply U.
  - intros r Hr. f_equal. apply (HU (fun k => if Nat.eqb k 0 then u r else u p)); [|exact Hc].
    exists mu. intros k Hk. destruct (Nat.eqb k 0); apply CO; auto.
Qed.

(** * Binary mixtures *)

(** the two coexisting compositions of a binary mixture *)
Definition binary (x : R) : vec := fun c => if Nat.eqb c 0 then x else 1 - x.
Definition binodal (rho : nat -> nat) (chis : mat) (sizes : vec) (a b : R) : Prop :=
  0 < a /\ a < b /\ b < 1 /\ coexisting (fe_of 2 rho chis sizes) 2 (fun p => binary (if Nat.eqb p 0 then a else b)).

Section Two.
Variables (rho : nat -> nat) (chis : mat) (sizes : vec).
Hypothesis (L0 : 0 < sizes 0%nat) (L1 : 0 < sizes 1%nat) (SY : chis (rho 0%nat) (rho 1%nat) = chis (rho 1%nat) (rho 0%nat)).
Notation F := (fe_of 2 rho chis sizes).

Lemma two_wf : wf_fe F.
Proof using L0 L1 SY.
  split; cbn.
  - intros [|[|i]] Hi; [lra|lra|lia].
  - intros [|[|i]] [|[|j]] Hi Hj; try lia; auto.
Qed.

Lemma coexisting_tangent N u p r : coexisting F N u -> (p < N)%nat -> (r < N)%nat ->
  0 < u p 0%nat < 1 /\ u p 1%nat = 1 - u p 0%nat /\ tangent_of chis rho sizes (u p 0%nat) (u r 0%nat).
Proof using L0 L1 SY.
  intros (mu & H) Hp Hr.
  assert (W : forall s, (s < N)%nat -> 0 < u s 0%nat < 1 /\ u s 1%nat = 1 - u s 0%nat /\
    mu 0%nat = bf_of chis rho sizes (u s 0%nat) + (1 - u s 0%nat) * bd_of chis rho sizes (u s 0%nat) /\
    mu 1%nat = bf_of chis rho sizes (u s 0%nat) - u s 0%nat * bd_of chis rho sizes (u s 0%nat)).
  { intros s Hs. destruct (H s Hs) as (P & S & M). cbn [fe_of fe_nc] in P, S. pose proof (P 0%nat ltac:(lia)). pose proof (P 1%nat ltac:(lia)).
    pose proof S as S2. cbn in S2. split; [lra|]. split; [lra|].
    apply (mu_bf (fun i j => chis (rho i) (rho j)) sizes SY L0 L1 (u s) mu S).
    intros i Hi. exact (potentials_value F (u s) mu i two_wf P M Hi). }
  destruct (W p Hp) as (A1 & A2 & A3 & A4), (W r Hr) as (B1 & B2 & B3 & B4).
  split; [exact A1|]. split; [exact A2|]. split; lra.
Qed.

Lemma tangent_coexisting N u : (forall p, (p < N)%nat -> 0 < u p 0%nat < 1 /\ u p 1%nat = 1 - u p 0%nat) ->
  (forall p r, (p < N)%nat -> (r < N)%nat -> tangent_of chis rho sizes (u p 0%nat) (u r 0%nat)) -> coexisting F N u.
Proof using L0 L1 SY.
  intros B T. exists (mu_of F (u 0%nat)). intros p Hp. destruct (B p Hp) as (R & E).
  assert (P : forall s, (s < N)%nat -> forall i, (i < 2)%nat -> 0 < u s i).
  { intros s Hs [|[|i]] Hi; [apply B, Hs| |lia]. destruct (B s Hs) as (R' & ->). lra. }
  assert (S : forall s, (s < N)%nat -> rsum 2 (u s) = 1) by (intros s Hs; cbn; rewrite (proj2 (B s Hs)); ring).
  split; [exact (P p Hp)|]. split; [exact (S p Hp)|].
  apply (potentials_ext F _ (mu_of F (u p))); [|apply potentials_mu; [exact two_wf|exact (P p Hp)]].
  assert (V : forall s, (s < N)%nat -> forall i, (i < 2)%nat -> mu_of F (u s) i =
    legendre 2 (fun i j => chis (rho i) (rho j)) sizes (u s) + dfh 2 (fun i j => chis (rho i) (rho j)) sizes (u s) i).
  { intros s Hs i Hi. exact (potentials_value F (u s) (mu_of F (u s)) i two_wf (P s Hs) (potentials_mu F (u s) two_wf (P s Hs)) Hi). }
  assert (H0 : (0 < N)%nat) by lia. destruct (T p 0%nat Hp H0) as (T1 & T2).
  destruct (bf_mu (fun i j => chis (rho i) (rho j)) sizes SY L0 L1 (u p) (S p Hp) (P p Hp)) as (X0 & X1).
  destruct (bf_mu (fun i j => chis (rho i) (rho j)) sizes SY L0 L1 (u 0%nat) (S 0%nat H0) (P 0%nat H0)) as (Y0 & Y1).
  intros [|[|i]] Hi; cbn [fe_of fe_nc] in Hi; [| |lia].
  - rewrite !V by auto. rewrite X0, Y0. lra.
  - rewrite !V by auto. rewrite X1, Y1. lra.
Qed.

(** The pair exists exactly beyond the critical point, and is unique. *)
Theorem C92_binodal : ((exists a b, binodal rho chis sizes a b) <-> critical_repulsion sizes < repulsion chis rho) /\
  forall a b a' b', binodal rho chis sizes a b -> binodal rho chis sizes a' b' -> a = a' /\ b = b'.
Proof using L0 L1 SY.
  assert (TG : forall a b, binodal rho chis sizes a b -> tangent_of chis rho sizes a b).
  { intros a b (A & B & C & CO). destruct (coexisting_tangent 2 _ 0%nat 1%nat CO) as (_ & _ & T); [lia|lia|exact T]. }
  split; [split|].
  - intros (a & b & HB). pose proof (TG a b HB) as T. destruct HB as (A & B & C & _). apply Rnot_le_lt. intros X.
    rewrite critical_eq in X. pose proof (below_critical _ _ _ _ _ L0 L1 a b ltac:(lra) ltac:(lra) X T). lra.
  - intros X. rewrite critical_eq in X.
    destruct (exists_tangent (sizes 0%nat) (sizes 1%nat) (chis (rho 0%nat) (rho 0%nat)) (chis (rho 0%nat) (rho 1%nat)) (chis (rho 1%nat) (rho 1%nat)) L0 L1)
      as (a & b & A & B & C & T); [exact X|]. exists a, b. split; [exact A|]. split; [exact B|]. split; [exact C|].
    apply tangent_coexisting.
    + intros [|[|p]] Hp; cbn; try lia; lra.
    + destruct T as (T1 & T2). intros [|[|p]] [|[|r]] Hp Hr; cbn; try lia; split; lra.
  - intros a b a' b' H H'. pose proof (TG a b H) as T. pose proof (TG a' b' H') as T'.
    destruct H as (A & B & C & _), H' as (A' & B' & C' & _).
    exact (unique_tangent _ _ _ _ _ L0 L1 a b a' b' A B C T A' B' C' T').
Qed.

(** exact equilibria of binary mixtures *)
Lemma binary_equilibrium N pm u w : (0 < N)%nat -> equilibrium F N pm u w ->
  (forall p c, (p < N)%nat -> (c < 2)%nat -> u p c = pm c) \/
  exists a b (s : nat -> bool), binodal rho chis sizes a b /\ a <= pm 0%nat <= b /\
    (forall p c, (p < N)%nat -> (c < 2)%nat -> u p c = binary (if s p then a else b) c) /\
    rsum N (fun p => if s p then w p else 0) = (b - pm 0%nat) / (b - a).
Proof using L0 L1 SY.
  intros HN (CO & W0 & W1 & WM). cbn [fe_of fe_nc] in WM.
  destruct (classic (exists p r, (p < N)%nat /\ (r < N)%nat /\ u p 0%nat < u r 0%nat)) as [(p0 & r0 & Hp0 & Hr0 & L)|NE].
  - right. exists (u p0 0%nat), (u r0 0%nat), (fun p => if Req_EM_T (u p 0%nat) (u p0 0%nat) then true else false).
    set (a := u p0 0%nat) in *. set (b := u r0 0%nat) in *.
    destruct (coexisting_tangent N u p0 r0 CO Hp0 Hr0) as (Ra & Ea & T). destruct (coexisting_tangent N u r0 p0 CO Hr0 Hp0) as (Rb & Eb & _).
    fold a b in Ra, Ea, T, Rb, Eb.
    assert (AB : forall p, (p < N)%nat -> u p 0%nat = a \/ u p 0%nat = b).
    { intros p Hp. destruct (coexisting_tangent N u p p0 CO Hp Hp0) as (Rp & Ep & T1). destruct (coexisting_tangent N u p r0 CO Hp Hr0) as (_ & _ & T2).
      fold a in T1. fold b in T2. assert (T1' : tangent_of chis rho sizes a (u p 0%nat)) by (destruct T1; split; auto).
      assert (T2' : tangent_of chis rho sizes b (u p 0%nat)) by (destruct T2; split; auto).
      destruct (Rtotal_order (u p 0%nat) a) as [X|[X|X]]; [exfalso|auto|].
      { exact (no_triple _ _ _ _ _ L0 L1 (u p 0%nat) a b (proj1 Rp) X L (proj2 Rb) T1 T). }
      destruct (Rtotal_order (u p 0%nat) b) as [Y|[Y|Y]]; [exfalso|auto|exfalso].
      - exact (no_triple _ _ _ _ _ L0 L1 a (u p 0%nat) b (proj1 Ra) X Y (proj2 Rb) T1' T2).
      - exact (no_triple _ _ _ _ _ L0 L1 a b (u p 0%nat) (proj1 Ra) L Y (proj2 Rp) T T2'). }
    split; [|split; [|split]].
    + split; [apply Ra|]. split; [exact L|]. split; [apply Rb|]. apply tangent_coexisting.
      * intros [|[|p]] Hp; cbn; try lia; lra.
      * destruct T as (T1 & T2). intros [|[|p]] [|[|r]] Hp Hr; cbn; try lia; split; lra.
    + rewrite <- (WM 0%nat) by lia.
      assert (LE : a * rsum N w <= rsum N (fun p => w p * u p 0%nat) <= b * rsum N w).
      { rewrite <- !rsum_scal_l. split; apply rsum_le; intros p Hp; specialize (W0 p Hp); destruct (AB p Hp) as [-> | ->]; nra. }
      rewrite W1 in LE. lra.
    + intros p c Hp Hc. destruct (coexisting_tangent N u p p CO Hp Hp) as (_ & Ep & _). destruct (AB p Hp) as [E|E].
      * destruct (Req_EM_T _ _) as [_|X]; [|contradiction]. destruct c as [|[|c]]; [exact E|cbn; lra|lia].
      * destruct (Req_EM_T _ _) as [X|_]; [lra|]. destruct c as [|[|c]]; [exact E|cbn; lra|lia].
    + assert (E : pm 0%nat = a * rsum N (fun p => if (if Req_EM_T (u p 0%nat) a then true else false) then w p else 0)
          + b * (rsum N w - rsum N (fun p => if (if Req_EM_T (u p 0%nat) a then true else false) then w p else 0))).
      { rewrite <- (WM 0%nat) by lia. rewrite <- rsum_minus, <- !rsum_scal_l, <- rsum_plus. apply rsum_ext. intros p Hp.
        destruct (Req_EM_T _ _) as [X|X]; [rewrite X; ring|]. destruct (AB p Hp) as [E|E]; [contradiction|]. rewrite E. ring. }
      rewrite W1 in E. set (S := rsum N _) in *. rewrite E. field. lra.
  - left. assert (EQ : forall p r, (p < N)%nat -> (r < N)%nat -> u p 0%nat = u r 0%nat).
    { intros p r Hp Hr. destruct (Rtotal_order (u p 0%nat) (u r 0%nat)) as [X|[X|X]]; [exfalso; apply NE; exists p, r; auto|exact X|exfalso; apply NE; exists r, p; auto]. }
    intros p c Hp Hc. rewrite <- (WM c Hc). rewrite (rsum_ext N _ (fun r => w r * u p c)).
    + rewrite rsum_scal_r, W1. ring.
    + intros r Hr. f_equal. destruct c as [|[|c]]; [apply EQ; auto| |lia].
      destruct (coexisting_tangent N u p p CO Hp Hp) as (_ & -> & _). destruct (coexisting_tangent N u r r CO Hr Hr) as (_ & -> & _).
      now rewrite (EQ r p).
Qed.

End Two.

(** What a run of a binary mixture returns, up to [e]: either the mean
    composition in every phase, or the two compositions of the phase diagram
    with volumes according to the lever rule.  The latter is impossible unless
    the repulsion exceeds the critical one. *)
Theorem C92_binary N nf rho chis sh sizes pm : admissible 2 nf chis sizes pm -> (forall i, (i < 2)%nat -> (rho i < nf)%nat) -> (0 < N)%nat ->
  forall e, 0 < e -> exists tol, 0 < tol /\
  forall G (ops : rng_ops G) (f : finder G cstate) a t i f' ph d,
    solves ops f 2 nf rho chis sh sizes -> f_ensemble f = can_compiled 2 pm -> f_np f = N ->
    run ops f a t i = (f', Ok ph) -> f_diag f' = Some d -> within d tol ->
    (forall c, (c < 2)%nat -> Rabs (mean_fraction ph c - pm c) <= tol) ->
    (forall p c, (p < N)%nat -> (c < 2)%nat -> Rabs (frac ph p c - pm c) < e) \/
    (critical_repulsion sizes < repulsion chis rho /\
     exists a b (s : nat -> bool), binodal rho chis sizes a b /\ a <= pm 0%nat <= b /\
       (forall p c, (p < N)%nat -> (c < 2)%nat -> Rabs (frac ph p c - binary (if s p then a else b) c) < e) /\
       Rabs (rsum N (fun p => if s p then share ph N p else 0) - (b - pm 0%nat) / (b - a)) < e).
Proof.
  intros HA HR HN e He.
  assert (L0 : 0 < sizes 0%nat) by (apply HA; lia). assert (L1 : 0 < sizes 1%nat) by (apply HA; lia).
  assert (SY : chis (rho 0%nat) (rho 1%nat) = chis (rho 1%nat) (rho 0%nat)) by (apply HA; apply HR; lia).
  assert (PN : 1 <= INR N) by (change 1 with (INR 1); apply le_INR; lia).
  assert (EN : 0 < e / INR N) by (apply Rdiv_lt_0_compat; lra).
  destruct (C92_run N 2 nf rho chis sh sizes pm HA HR HN (e / INR N) EN) as (tol & T0 & B).
  assert (LE : e / INR N <= e).
  { apply (Rmult_le_reg_r (INR N)); [lra|]. unfold Rdiv. rewrite Rmult_assoc, Rinv_l by lra. nra. }
  exists tol. split; [exact T0|]. intros G ops f a t i f' ph d HS HE EN2 H HD HW HM.
  destruct (B G ops f a t i f' ph d HS HE EN2 H HD HW HM) as (u & w & EQ & U & V).
  destruct (binary_equilibrium rho chis sizes L0 L1 SY N pm u w HN EQ) as [M|(a0 & b0 & s & BI & AB & SU & SW)].
  - left. intros p c Hp Hc. rewrite <- (M p c Hp Hc). eapply Rlt_le_trans; [apply U; auto|exact LE].
  - right. split; [apply (proj1 (C92_binodal rho chis sizes L0 L1 SY)); eauto|].
    exists a0, b0, s. split; [exact BI|]. split; [exact AB|]. split.
    + intros p c Hp Hc. rewrite <- (SU p c Hp Hc). eapply Rlt_le_trans; [apply U; auto|exact LE].
    + rewrite <- SW, <- rsum_minus.
      assert (S : forall n, (0 < n <= N)%nat -> Rabs (rsum n (fun p => (if s p then share ph N p else 0) - (if s p then w p else 0))) < INR n * (e / INR N)).
      { induction n as [|[|n] IH]; intros Hn; [lia| |].
        - cbn [rsum]. rewrite Rplus_0_l. cbn [INR]. rewrite Rmult_1_l. specialize (V 0%nat ltac:(lia)). destruct (s 0%nat); [exact V|].
          rewrite Rminus_0_r, Rabs_R0. exact EN.
        - change (rsum (S (S n)) ?g) with (rsum (S n) g + g (S n)). cbv beta. rewrite (S_INR (S n)).
          eapply Rle_lt_trans; [apply Rabs_triang|]. specialize (IH ltac:(lia)). specialize (V (S n) ltac:(lia)).
          assert (Z : Rabs ((if s (S n) then share ph N (S n) else 0) - (if s (S n) then w (S n) else 0)) < e / INR N).
          { destruct (s (S n)); [exact V|]. rewrite Rminus_0_r, Rabs_R0. exact EN. }
          lra. }
      specialize (S N ltac:(lia)). replace (INR N * (e / INR N)) with e in S by (field; lra). exact S.
Qed.

(* ------------------------------------------------------------------ *)
(** * The grand canonical ensemble *)

(** the differences [mus] asks for (compare C53) *)
Definition requested (sizes mus : vec) (c : nat) : R := mus c + (1 + ln (sizes c)) / sizes c.
(** coexisting compositions with the requested differences of the chemical
    potentials *)
Definition imposed (F : fe) (N : nat) (mus : vec) (u : nat -> vec) : Prop :=
  exists mu, (forall p, (p < N)%nat ->
    (forall c, (c < fe_nc F)%nat -> 0 < u p c) /\ rsum (fe_nc F) (u p) = 1 /\ potentials F (u p) mu) /\
  forall c, (c < fe_nc F)%nat -> mu c - mu 0%nat = requested (fe_sizes F) mus c - requested (fe_sizes F) mus 0%nat.

Lemma run_imposed nc nf rho chis sh sizes mus : admissible nc nf chis sizes (fun _ => 1) -> (0 < nc)%nat ->
  exists K, 0 < K /\ forall (G : Type) (ops : rng_ops G) (f : finder G cstate) a t i f' ph d tol,
    solves ops f nc nf rho chis sh sizes -> f_ensemble f = gc_compiled nc (gc_activity_from_mu mus sizes) ->
    run ops f a t i = (f', Ok ph) -> f_diag f' = Some d -> within d tol ->
    forall p mu c, (p < f_np f)%nat -> (c < nc)%nat -> potentials (fe_of nc rho chis sizes) (frac ph p) mu ->
    Rabs (mu c - mu 0%nat - (requested sizes mus c - requested sizes mus 0%nat)) <= K * tol.
Proof.
  intros HA HN. destruct (extremes nf chis (proj1 HA)) as (lo & hi & Hlo & Hhi).
  exists (1 + INR nf + Rabs (shifted_sum nf chis lo sh)).
  pose proof (pos_INR nf) as P1. pose proof (Rabs_pos (shifted_sum nf chis lo sh)) as P2.
  split; [lra|]. intros G ops f a t i f' ph d tol [HR Ht <- HM HI] HE H HD (T1 & T2 & T3) p mu c Hp Hc M.
  destruct (run_columns ops f a t i f' ph d HR Ht H HD) as (k1 & k' & nv & rep & EI & HI1 & D1 & D2 & D3 & HC).
  apply (fun F => F HI) in HI1.
  assert (HA' : admissible (f_nc f) nf chis sizes (gc_activity_from_mu mus sizes)).
  { destruct HA as (A1 & A2 & A3 & _). split; [exact A1|]. split; [exact A2|]. split; [exact A3|]. intros j Hj.
    unfold gc_activity_from_mu. apply Rmult_lt_0_compat; [auto|apply exp_pos]. }
  assert (HE' : any_ensemble (kernel_of f) (f_nc f) (gc_activity_from_mu mus sizes)) by (right; exact HE).
  destruct (step_fractions _ _ _ _ _ _ _ _ _ _ _ _ HM HE' HA' Ht EI) as (_ & WF & N1 & N2 & N3 & HF).
  destruct (HC p Hp) as (m & Hm & Lm & Em). destruct (HF m Hm Lm) as (Pm & _).
  assert (AX : axis_index (f_nc f) 0 = Ok 0%nat).
  { unfold axis_index. destruct (f_nc f); [lia|]. reflexivity. }
  destruct (C53_exchange_potentials (kernel_of f) k1 k' nv rep (f_nc f) nf rho chis sh lo sizes mus 0%Z 0%nat HM HE HA Hlo Ht HI1 EI AX HN m Hm Lm) as (ex & P & B).
  pose proof (exchanges_dfh (fe_of (f_nc f) rho chis sizes) (fun i => v_phis_comp k' i m) 0%Z 0%nat WF Pm AX HN) as P'.
  assert (EX : ex c = dfh (f_nc f) (fun i j => chis (rho i) (rho j)) sizes (fun i => v_phis_comp k' i m) c
                    - dfh (f_nc f) (fun i j => chis (rho i) (rho j)) sizes (fun i => v_phis_comp k' i m) 0%nat).
  { unfold exchanges in P, P'. rewrite P' in P. injection P as P. apply (f_equal (fun l => nth c l NaN)) in P.
    rewrite !listed_nth in P by exact Hc. injection P as P. symmetry. exact P. }
  assert (MV : forall j, (j < f_nc f)%nat -> mu j = legendre (f_nc f) (fun i j => chis (rho i) (rho j)) sizes (fun i => v_phis_comp k' i m)
      + dfh (f_nc f) (fun i j => chis (rho i) (rho j)) sizes (fun i => v_phis_comp k' i m) j).
  { intros j Hj. apply (potentials_value (fe_of (f_nc f) rho chis sizes) (fun i => v_phis_comp k' i m) mu j WF Pm); [|exact Hj].
    unfold potentials in *. cbn [fe_of fe_nc] in *. rewrite <- M. f_equal. f_equal. apply listed_ext. intros z Hz. symmetry. auto. }
  rewrite (MV c Hc), (MV 0%nat HN). specialize (B c Hc). rewrite EX, D1, D2 in *. unfold requested.
  match goal with |- Rabs ?x <= _ => match type of B with Rabs ?y <= _ => replace x with y by ring end end.
  eapply Rle_trans; [exact B|]. nra.
Qed.

(** no fraction is below a bound that depends on the parameters only *)
Lemma imposed_present nc (C : mat) sizes (req : vec) K : (forall i, (i < nc)%nat -> 0 < sizes i) -> (0 < nc)%nat -> 0 <= K ->
  exists kap : vec, (forall c, (c < nc)%nat -> 0 < kap c) /\ forall x : vec,
    (forall c, (c < nc)%nat -> 0 < x c) -> Rabs (rsum nc x - 1) <= 1 / 2 ->
    (forall c, (c < nc)%nat -> Rabs (dfh nc C sizes x c - dfh nc C sizes x 0%nat - (req c - req 0%nat)) <= K) ->
    forall c, (c < nc)%nat -> kap c <= x c.
Proof.
  intros HS HN HK. destruct (shortest nc sizes HS) as (lmin & L0 & LM).
  set (X := rsum nc (fun i => rsum nc (fun j => Rabs (C i j)))). set (Rq := rsum nc (fun i => Rabs (req i))).
  set (Q := ln (2 * INR nc) / lmin + / lmin + / lmin + 2 * K + 4 * X + 2 * Rq).
  exists (fun c => exp (- (sizes c * Q))). split; [intros; apply exp_pos|]. intros x P S E c Hc.
  assert (PN : 1 <= INR nc) by (change 1 with (INR 1); apply le_INR; lia).
  assert (XB : forall i j, (i < nc)%nat -> (j < nc)%nat -> Rabs (C i j) <= X).
  { intros i j Hi Hj. apply Rle_trans with (rsum nc (fun j => Rabs (C i j))).
    - apply (one_le nc (fun j => Rabs (C i j))); [intros; apply Rabs_pos|exact Hj].
    - apply (one_le nc (fun i => rsum nc (fun j => Rabs (C i j)))); [intros; apply rsum_nonneg; intros; apply Rabs_pos|exact Hi]. }
  assert (RB : forall i, (i < nc)%nat -> Rabs (req i) <= Rq).
  { intros i Hi. apply (one_le nc (fun i => Rabs (req i))); [intros; apply Rabs_pos|exact Hi]. }
  assert (J : exists j, (j < nc)%nat /\ / (2 * INR nc) <= x j).
  { apply NNPP. intros N. apply Rabs_le_inv in S.
    assert (LT : rsum nc x < rsum nc (fun _ => / (2 * INR nc))).
    { assert (W : forall n, (0 < n <= nc)%nat -> rsum n x < rsum n (fun _ => / (2 * INR nc))).
      { induction n as [|[|n] IH]; intros Hn; [lia| |].
        - cbn. assert (x 0%nat < / (2 * INR nc)) by (apply Rnot_le_lt; intros Y; apply N; exists 0%nat; split; [lia|exact Y]). lra.
        - change (rsum (Datatypes.S (Datatypes.S n)) ?g) with (rsum (Datatypes.S n) g + g (Datatypes.S n)). cbv beta. specialize (IH ltac:(lia)).
          assert (x (Datatypes.S n) < / (2 * INR nc)) by (apply Rnot_le_lt; intros Y; apply N; exists (Datatypes.S n); split; [lia|exact Y]). lra. }
      apply W. lia. }
    rewrite rsum_const in LT. replace (INR nc * / (2 * INR nc)) with (1 / 2) in LT by (field; lra). lra. }
  destruct J as (j & Hj & XJ).
  assert (CH : forall i, (i < nc)%nat -> Rabs (rsum nc (fun k => C i k * x k)) <= 2 * X).
  { intros i Hi. apply Rle_trans with (rsum nc (fun k => X * x k)).
    - eapply Rle_trans; [apply rsum_Rabs|]. apply rsum_le. intros k Hk. rewrite Rabs_mult, (Rabs_right (x k)) by (left; now apply P).
      apply Rmult_le_compat_r; [left; now apply P|]. now apply XB.
    - rewrite rsum_scal_l. apply Rabs_le_inv in S. assert (0 <= X) by (apply rsum_nonneg; intros; apply rsum_nonneg; intros; apply Rabs_pos). nra. }
  pose proof (E c Hc) as Ec. pose proof (E j Hj) as Ej. unfold dfh in Ec, Ej. apply Rabs_le_inv in Ec, Ej.
  pose proof (CH c Hc) as Cc. pose proof (CH j Hj) as Cj. apply Rabs_le_inv in Cc, Cj.
  pose proof (RB c Hc) as Rc. pose proof (RB j Hj) as Rj. apply Rabs_le_inv in Rc, Rj.
  assert (IV : forall i, (i < nc)%nat -> 0 < / sizes i <= / lmin).
  { intros i Hi. split; [apply Rinv_0_lt_compat; auto|]. apply Rinv_le_contravar; auto. }
  pose proof (IV c Hc) as Ic. pose proof (IV j Hj) as Ij.
  assert (LJ : - (ln (2 * INR nc) / lmin) <= ln (x j) / sizes j).
  { assert (A : - ln (2 * INR nc) <= ln (x j)).
    { rewrite <- ln_Rinv by lra. apply ln_le; [apply Rinv_0_lt_compat; lra|exact XJ]. }
    assert (B : 0 <= ln (2 * INR nc)) by (rewrite <- ln_1; apply ln_le; lra).
    unfold Rdiv. nra. }
  assert (LC : - Q <= ln (x c) / sizes c).
  { unfold Q. unfold Rdiv in *. rewrite !Rmult_plus_distr_r, !Rmult_1_l in *. lra. }
  rewrite <- (exp_ln (x c)) by now apply P. apply exp_mono.
  apply (Rmult_le_reg_r (/ sizes c)); [apply Ic|]. replace (- (sizes c * Q) * / sizes c) with (- Q) by (field; pose proof (HS c Hc); lra).
  exact LC.
Qed.

(** Returned phases of the grand canonical ensemble are close to coexisting
    compositions with exactly the requested differences of the chemical
    potentials. *)
Theorem C92_grand N nc nf rho chis sh sizes mus : admissible nc nf chis sizes (fun _ => 1) -> (forall i, (i < nc)%nat -> (rho i < nf)%nat) -> (0 < nc)%nat ->
  forall e, 0 < e -> exists tol, 0 < tol /\
  forall G (ops : rng_ops G) (f : finder G cstate) a t i f' ph d,
    solves ops f nc nf rho chis sh sizes -> f_ensemble f = gc_compiled nc (gc_activity_from_mu mus sizes) -> f_np f = N ->
    run ops f a t i = (f', Ok ph) -> f_diag f' = Some d -> within d tol ->
    exists u, imposed (fe_of nc rho chis sizes) N mus u /\
      forall p c, (p < N)%nat -> (c < nc)%nat -> Rabs (frac ph p c - u p c) < e.
Proof.
  intros HA HR HN0 e He. set (F := fe_of nc rho chis sizes).
  assert (WF : wf_fe F).
  { split; cbn; [intros i Hi Z; pose proof (proj1 (proj2 (proj2 HA)) i Hi); lra|]. intros i j Hi Hj. apply HA; auto. }
  assert (HA' : admissible nc nf chis sizes (gc_activity_from_mu mus sizes)).
  { destruct HA as (A1 & A2 & A3 & _). split; [exact A1|]. split; [exact A2|]. split; [exact A3|]. intros j Hj.
    unfold gc_activity_from_mu. apply Rmult_lt_0_compat; [auto|apply exp_pos]. }
  destruct (run_balanced nc nf rho chis sh sizes _ HA') as (K & K0 & B).
  destruct (run_imposed nc nf rho chis sh sizes mus HA HN0) as (K2 & K20 & B').
  destruct (imposed_present nc (fun i j => chis (rho i) (rho j)) sizes (requested sizes mus) K2) as (kap & KP & PR);
    [apply HA|exact HN0|lra|].
  set (S := fun g => balance F N g \/ exists p c, (p < N)%nat /\ (c < nc)%nat /\
    g = fun z : vec => mu_of F (fun c => z (at_ F p c)) c - mu_of F (fun c => z (at_ F p c)) 0%nat - (requested sizes mus c - requested sizes mus 0%nat)).
  destruct (approximate (N * Datatypes.S nc) (lows F kap) highs S) with (e := e) as (d0 & D0 & AP); [|exact He|].
  { intros g t [Hg|(p & c & Hp & Hc & ->)] Ht.
    - exact (balance_cont F N kap KP g t Hg Ht).
    - apply cont_minus; [|apply cont_const]. apply cont_minus; apply (mu_cont _ F (at_ F p)); auto;
        intros j Hj; try (apply (at_bound F N); [exact Hp|exact (Nat.lt_le_incl _ _ Hj)]); now apply (in_positive F N kap KP). }
  exists (Rmin (1 / 2) (Rmin d0 (Rmin (d0 / K) (d0 / K2)))).
  assert (DK : 0 < d0 / K) by now apply Rdiv_lt_0_compat. assert (DK2 : 0 < d0 / K2) by now apply Rdiv_lt_0_compat.
  split; [repeat apply Rmin_glb_lt; lra|].
  intros G ops f a t i f' ph d HS HE <- H HD W. set (tol := Rmin _ _) in W.
  assert (T1 : tol <= 1 / 2) by apply Rmin_l.
  assert (T2 : tol <= d0) by (eapply Rle_trans; [apply Rmin_r|apply Rmin_l]).
  assert (T3 : K * tol <= d0).
  { apply (Rmult_le_reg_l (/ K)); [now apply Rinv_0_lt_compat|]. rewrite <- Rmult_assoc, Rinv_l, Rmult_1_l by lra.
    eapply Rle_trans; [apply Rmin_r|]. eapply Rle_trans; [apply Rmin_r|]. eapply Rle_trans; [apply Rmin_l|]. right. unfold Rdiv. ring. }
  assert (T4 : K2 * tol <= d0).
  { apply (Rmult_le_reg_l (/ K2)); [now apply Rinv_0_lt_compat|]. rewrite <- Rmult_assoc, Rinv_l, Rmult_1_l by lra.
    eapply Rle_trans; [apply Rmin_r|]. eapply Rle_trans; [apply Rmin_r|]. eapply Rle_trans; [apply Rmin_r|]. right. unfold Rdiv. ring. }
  destruct (B G ops f a t i f' ph d tol HS (or_intror HE) H HD W) as (B1 & B2 & B3).
  assert (B4 := B' G ops f a t i f' ph d tol HS HE H HD W).
  assert (MU : forall p, (p < f_np f)%nat -> potentials F (frac ph p) (mu_of F (frac ph p))).
  { intros p Hp. apply potentials_mu; [exact WF|]. intros c Hc. now apply B1. }
  assert (DF : forall x i, mu_of F x i - mu_of F x 0%nat = dfh nc (fun i j => chis (rho i) (rho j)) sizes x i - dfh nc (fun i j => chis (rho i) (rho j)) sizes x 0%nat).
  { intros x j. unfold mu_of. cbn [F fe_of fe_nc fe_chis fe_sizes]. ring. }
  assert (PR' : forall p c, (p < f_np f)%nat -> (c < nc)%nat -> kap c <= frac ph p c).
  { intros p c Hp Hc. apply PR; auto.
    - eapply Rle_trans; [apply B2, Hp|exact T1].
    - intros j Hj. rewrite <- DF. eapply Rle_trans; [apply (B4 p _ j Hp Hj (MU p Hp))|]. nra. }
  destruct (AP (store F (frac ph) (fun _ => 0))) as (z & Z1 & Z2 & Z3).
  - intros k Hk. destruct (index_cases F (f_np f) k Hk) as (p & c & Hp & Hc & ->). unfold highs. destruct (Nat.eq_dec c (fe_nc F)) as [->|N0].
    + rewrite lows_vol, store_vol. lra.
    + assert (Hc' : (c < fe_nc F)%nat) by lia. rewrite lows_frac, store_frac by exact Hc'. split; [now apply PR'|].
      assert (SS : frac ph p c <= rsum nc (frac ph p)) by (apply one_le; [intros j Hj; left; now apply B1|exact Hc']).
      specialize (B2 p Hp). apply Rabs_le_inv in B2. lra.
  - intros g [Hg|(p & c & Hp & Hc & ->)].
    + revert g Hg. apply (balance_small F (f_np f) kap WF KP).
      * exact PR'.
      * intros p Hp. eapply Rle_trans; [apply B2, Hp|exact T2].
      * intros p r mu mu' c Hp Hr Hc M1 M2. eapply Rle_trans; [|exact T3]. exact (B3 p r mu mu' c Hp Hr Hc M1 M2).
    + rewrite !(mu_of_ext F (fun c => store F (frac ph) (fun _ => 0) (at_ F p c)) (frac ph p)); try assumption; try (intros j Hj; now apply store_frac).
      eapply Rle_trans; [|exact T4]. apply (B4 p _ c Hp Hc (MU p Hp)).
  - exists (fun p c => z (at_ F p c)). split.
    + destruct (f_np f) as [|n] eqn:EN.
      { exists (fun c => requested sizes mus c). split; [intros p Hp; lia|]. intros c Hc. reflexivity. }
      exists (mu_of F (fun c => z (at_ F 0 c))). split.
      * intros p Hp. split; [intros c Hc; exact (in_positive F (Datatypes.S n) kap KP z p c Z1 Hp Hc)|].
        split; [pose proof (Z3 _ (or_introl (b_total F (Datatypes.S n) p Hp))); cbn beta in *; lra|].
        apply (potentials_ext F _ (mu_of F (fun c => z (at_ F p c)))).
        -- intros c Hc. pose proof (Z3 _ (or_introl (b_mu F (Datatypes.S n) p 0%nat c Hp ltac:(lia) Hc))) as E. cbn beta in E. lra.
        -- apply potentials_mu; [exact WF|]. intros c Hc. exact (in_positive F (Datatypes.S n) kap KP z p c Z1 Hp Hc).
      * intros c Hc. pose proof (Z3 _ (or_intror (ex_intro _ 0%nat (ex_intro _ c (conj (Nat.lt_0_succ n) (conj Hc eq_refl)))))) as E. cbn beta in E.
        cbn [F fe_of fe_sizes]. lra.
    + intros p c Hp Hc. specialize (Z2 (at_ F p c) ltac:(apply at_bound; [exact Hp|exact (Nat.lt_le_incl _ _ Hc)])). now rewrite store_frac in Z2.
Qed.
