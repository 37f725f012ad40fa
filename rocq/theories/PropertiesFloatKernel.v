(** PropertiesFloatKernel.v -- NaN and infinities in a run of the finder,
    in binary64 arithmetic (C83). *)

From Flocq Require Import Core BinarySingleNaN.
From Coq Require Import Reals ZArith List Bool Arith Lia Lra.
From Verif Require Import Base ModelFloat ModelFloatKernel ProofsFloatKernel.
Import ListNotations.

Section FloatRuns.
Context {G St : Type} (pf : platform64 G) (q : kernel64).
Local Notation np := (z_np q).
Local Notation nf := (z_nf q).
Local Notation nc := (z_nc q).

(* ------------------------------------------------------------------ *)
(** * One step and several *)

Lemma one_step64_inv tries (w w' : mstate64 G St) : one_step64 pf q tries w = Ok w' ->
  exists k rep, u_rep w' = Some rep /\
    iterate64 pf q k = Ok (u_k w', u_valid w', rep) /\
    (forall m, x_Js (u_k w) m = NaN -> x_Js k m = NaN) /\
    (forall r m, (m < np)%nat -> x_omegas (u_k w) r m = NaN -> x_omegas k r m = NaN).
Proof.
  unfold one_step64. destruct (maybe_revive64 pf q tries (u_count w) (u_k w)) as [c k] eqn:E.
  destruct (iterate64 pf q k) as [[[k' n] rep]|] eqn:I; [|discriminate]. cbn. intros H. injection H as <-.
  exists k, rep. cbn [u_rep u_k u_valid]. split; [reflexivity|]. split; [exact I|].
  unfold maybe_revive64 in E. destruct (Z.ltb _ _); [|injection E as <- <-; auto].
  destruct (Nat.eqb _ _); [injection E as <- <-; auto|].
  pose proof (revive_random_nan pf nf np (x_Js (u_k w)) (x_omegas (u_k w)) (z_thr q) (x_g (u_k w)) (z_scaler q)) as R.
  destruct (revive_random64 _ _ _ _ _ _ _ _) as [[[c' J] t] g]. injection E as <- <-. exact R.
Qed.

(** some volume or some field is NaN *)
Definition tainted (k : state64 G St) : Prop :=
  exists m, (m < np)%nat /\
    (x_Js k m = NaN \/ exists r, (r < nf)%nat /\ x_omegas k r m = NaN).
(** all of them are *)
Definition rotten (k : state64 G St) : Prop :=
  forall m, (m < np)%nat -> x_Js k m = NaN /\ forall r, (r < nf)%nat -> x_omegas k r m = NaN.

Lemma tainted_step tries w w' : tainted (u_k w) -> one_step64 pf q tries w = Ok w' ->
  rotten (u_k w') /\ exists rep, u_rep w' = Some rep /\ r6_Js rep = NaN.
Proof.
  intros (m & L & T) H. apply one_step64_inv in H. destruct H as (k & rep & E & I & HJ & Hw). pose proof (iterate64_inv pf _ _ _ _ _ I) as V.
  destruct (nan_step pf q k (u_k w') (u_valid w') rep V m L) as (A & B & C).
  { destruct T as [T|(r & Lr & T)]; [left; auto|right; exists r; split; auto]. }
  split; [intros m' L'; split; auto|eauto].
Qed.
Lemma rotten_tainted k : (1 <= np)%nat -> rotten k -> tainted k.
Proof. intros L H. exists O. split; [lia|]. left. apply H. lia. Qed.
(** what a step on a rotten state leaves and reports *)
Definition all_nan (k : state64 G St) (rep : report64) : Prop :=
  (forall i m, (m < np)%nat -> x_comp k i m = NaN) /\ r6_incomp rep = NaN /\ r6_omega rep = zero64.
Lemma rotten_step tries w w' : (1 <= np)%nat -> rotten (u_k w) -> one_step64 pf q tries w = Ok w' ->
  exists rep, u_rep w' = Some rep /\ all_nan (u_k w') rep.
Proof.
  intros L R H. apply one_step64_inv in H. destruct H as (k & rep & E & I & HJ & Hw). pose proof (iterate64_inv pf _ _ _ _ _ I) as V.
  exists rep. split; auto. apply (nan_rotten pf q k (u_k w') (u_valid w') rep V L).
  intros m Lm. destruct (R m Lm) as [R1 R2]. split; auto.
Qed.

Lemma tainted_steps tries : (1 <= np)%nat -> forall n w w', (1 <= n)%nat -> tainted (u_k w) ->
  steps64 pf q tries n w = Ok w' ->
  rotten (u_k w') /\ exists rep, u_rep w' = Some rep /\ r6_Js rep = NaN /\
    ((2 <= n)%nat \/ rotten (u_k w) -> all_nan (u_k w') rep).
Proof.
  intros Lp. induction n as [|n IH]; intros w w' L T H; [lia|]. cbn in H.
  destruct (steps64 pf q tries n w) as [w1|] eqn:E; [|discriminate]. cbn in H.
  destruct n as [|n].
  - cbn in E. injection E as <-. destruct (tainted_step _ _ _ T H) as [R (rep & Er & En)].
    split; [exact R|]. exists rep. split; [exact Er|split; [exact En|]]. intros [C|C]; [lia|].
    destruct (rotten_step _ _ _ Lp C H) as (rep' & Er' & A). rewrite Er in Er'. injection Er' as <-. exact A.
  - destruct (IH w w1 ltac:(lia) T E) as [R1 _].
    destruct (tainted_step _ _ _ (rotten_tainted _ Lp R1) H) as [R (rep & Er & En)].
    split; [exact R|]. exists rep. split; [exact Er|split; [exact En|]]. intros _.
    destruct (rotten_step _ _ _ Lp R1 H) as (rep' & Er' & A). rewrite Er in Er'. injection Er' as <-. exact A.
Qed.

Lemma tainted_metastep inner tries k k' rep c safe : (1 <= np)%nat -> tainted k ->
  metastep64 pf q inner tries k = Ok (k', rep, c, safe) ->
  rotten k' /\ r6_Js rep = NaN /\ ((2 <= inner)%nat \/ rotten k -> all_nan k' rep).
Proof.
  intros L T H. unfold metastep64 in H.
  destruct (steps64 pf q tries inner _) as [w|] eqn:E; [|discriminate]. cbn [bind] in H.
  destruct inner as [|inner]; [cbn in E; injection E as <-; discriminate H|].
  destruct (tainted_steps tries L (S inner) {| u_k := k; u_count := O; u_valid := 0%Z; u_rep := None |} w ltac:(lia) T E) as [R (rep' & Er & En & A)].
  rewrite Er in H. injection H as <- <- <- <-. auto.
Qed.

Lemma nan_not_converged tol safe rep : r6_Js rep = NaN -> converged64 tol safe rep = false.
Proof.
  intros H. unfold converged64. rewrite H, lt_nan_l.
  destruct safe, (lt64 (r6_incomp rep) tol), (lt64 (r6_omega rep) tol); reflexivity.
Qed.

Lemma tainted_loop tol inner : (1 <= np)%nat -> forall tr k left last o, (1 <= tr)%nat -> tainted k ->
  loop64 pf q tol inner tr k left last = Ok o ->
  rotten (oc_k o) /\ r6_Js (oc_rep o) = NaN /\ converged64 tol (oc_safe o) (oc_rep o) = false /\
  ((2 <= inner * tr)%nat \/ rotten k -> all_nan (oc_k o) (oc_rep o)).
Proof.
  intros L. induction tr as [|tr IH]; intros k left last o Lt T H; [lia|]. cbn [loop64] in H.
  destruct (metastep64 pf q inner left k) as [[[[k' rep] c] safe]|] eqn:E; [|discriminate]. cbn [bind] in H.
  destruct (tainted_metastep _ _ _ _ _ _ _ L T E) as (R & N & A).
  rewrite (nan_not_converged tol safe rep N) in H.
  destruct tr as [|tr].
  - cbn in H. injection H as <-. cbn [oc_k oc_rep oc_safe].
    split; [exact R|split; [exact N|split; [apply nan_not_converged; exact N|]]].
    intros C. apply A. destruct C as [C|C]; [left; lia|right; exact C].
  - apply IH in H; [|lia|apply rotten_tainted; auto].
    destruct H as (H1 & H2 & H3 & H4). split; [exact H1|split; [exact H2|split; [exact H3|]]].
    intros _. apply H4. right. exact R.
Qed.

(* ------------------------------------------------------------------ *)
(** * C83 *)

(** A NaN among the fields or the volumes at the start of [run] never goes away
    and never passes the test of convergence: at the end every volume and every
    field is NaN, the returned volumes are NaN, and as soon as two steps were
    made all returned fractions are NaN. *)
Theorem C83_nan tol inner tr left k o J phis : (1 <= np)%nat -> (1 <= tr)%nat -> tainted k ->
  run64 pf q tol inner tr left k = Ok (o, J, phis) ->
  converged64 tol (oc_safe o) (oc_rep o) = false /\
  r6_Js (oc_rep o) = NaN /\
  (forall m, (m < np)%nat -> J m = NaN) /\
  (forall r m, (r < nf)%nat -> (m < np)%nat -> x_omegas (oc_k o) r m = NaN) /\
  ((2 <= inner * tr)%nat -> forall i m, (m < np)%nat -> phis i m = NaN).
Proof.
  intros L Lt T H. unfold run64 in H.
  destruct (loop64 pf q tol inner tr k left None) as [o'|] eqn:E; [|discriminate]. cbn [bind] in H.
  destruct (revive_copy64 _ _ _ _ _ _) as [[[J' phis'] g']|] eqn:C; [|discriminate]. cbn [bind] in H.
  injection H as <- <- <-.
  destruct (tainted_loop tol inner L tr k left None o' Lt T E) as (R & N & V & A).
  apply revive_copy_none in C.
  2:{ intros m Lm. rewrite (proj1 (R m Lm)). apply dead_nan. }
  destruct C as [-> ->].
  split; [exact V|split; [exact N|split; [|split]]].
  - intros m Lm. apply R. exact Lm.
  - intros r m Lr Lm. apply R; auto.
  - intros L2. apply A. left. exact L2.
Qed.

(** All the same the reported field error is 0: [max(0, NaN)] is 0. *)
Theorem C83_field_error_hides_nan tol inner tr left k o J phis :
  (1 <= np)%nat -> (1 <= tr)%nat -> (2 <= inner * tr)%nat -> tainted k ->
  run64 pf q tol inner tr left k = Ok (o, J, phis) ->
  (forall r m, (r < nf)%nat -> (m < np)%nat -> x_omegas (oc_k o) r m = NaN) /\
  r6_omega (oc_rep o) = zero64.
Proof.
  intros L Lt L2 T H. split; [eapply C83_nan; eauto|]. unfold run64 in H.
  destruct (loop64 pf q tol inner tr k left None) as [o'|] eqn:E; [|discriminate]. cbn [bind] in H.
  destruct (revive_copy64 _ _ _ _ _ _) as [[[J' phis'] g']|] eqn:C; [|discriminate]. cbn [bind] in H.
  injection H as <- <- <-.
  destruct (tainted_loop tol inner L tr k left None o' Lt T E) as (R & N & V & A).
  apply A. left. exact L2.
Qed.

(** the last iteration of a metastep and of a run *)
Lemma metastep64_last inner tries k k' rep c safe :
  metastep64 pf q inner tries k = Ok (k', rep, c, safe) ->
  exists (k1 : state64 G St) n, iterate64 pf q k1 = Ok (k', n, rep) /\
    safe = Z.eqb n (Z.of_nat (count_valid64 np (x_Js k') (z_thr q))).
Proof.
  unfold metastep64. destruct inner as [|inner]; [discriminate|]. cbn [steps64].
  destruct (steps64 pf q tries inner _) as [w|]; [|discriminate]. cbn [bind].
  destruct (one_step64 pf q tries w) as [w'|] eqn:E; [|discriminate]. cbn [bind].
  apply one_step64_inv in E. destruct E as (k1 & rep' & Er & V & _). rewrite Er.
  intros H. injection H as <- <- <- <-. eauto.
Qed.
Lemma loop64_last tol inner : forall tr k left last o,
  loop64 pf q tol inner tr k left last = Ok o ->
  (tr = O /\ last = Some o) \/
  exists (k1 : state64 G St) n, iterate64 pf q k1 = Ok (oc_k o, n, oc_rep o) /\
    oc_safe o = Z.eqb n (Z.of_nat (count_valid64 np (x_Js (oc_k o)) (z_thr q))).
Proof.
  induction tr as [|tr IH]; intros k left last o H; cbn [loop64] in H.
  - left. destruct last; [injection H as <-; auto|discriminate].
  - right. destruct (metastep64 pf q inner left k) as [[[[k' rep] c] safe]|] eqn:E; [|discriminate]. cbn [bind] in H.
    apply metastep64_last in E. destruct (converged64 tol safe rep).
    + injection H as <-. exact E.
    + apply IH in H. destruct H as [[-> H]|H]; [|exact H]. injection H as <-. exact E.
Qed.
Lemma run64_last tol inner tr left k o J phis :
  run64 pf q tol inner tr left k = Ok (o, J, phis) ->
  (exists (k1 : state64 G St) n, iterate64 pf q k1 = Ok (oc_k o, n, oc_rep o) /\
    oc_safe o = Z.eqb n (Z.of_nat (count_valid64 np (x_Js (oc_k o)) (z_thr q)))) /\
  (forall m, (m < np)%nat -> exists m', (m' < np)%nat /\ forall i, phis i m = x_comp (oc_k o) i m').
Proof.
  unfold run64. destruct (loop64 pf q tol inner tr k left None) as [o'|] eqn:E; [|discriminate]. cbn [bind].
  destruct (revive_copy64 _ _ _ _ _ _) as [[[J' phis'] g']|] eqn:C; [|discriminate]. cbn [bind].
  intros H. injection H as <- <- <-. split.
  - apply loop64_last in E. destruct E as [[_ E]|E]; [discriminate|exact E].
  - eapply revive_copy_cols. exact C.
Qed.

(** Finite reported errors vouch for the numbers behind them.  A finite
    incompressibility error: every returned fraction is finite.  A finite volume
    error: the incompressibility error is finite too, and so were all fields and
    volumes that entered the last step and the feature fractions it computed. *)
Theorem C83_finite tol inner tr left k o J phis : (1 <= np)%nat ->
  run64 pf q tol inner tr left k = Ok (o, J, phis) ->
  (is_finite (r6_incomp (oc_rep o)) = true ->
     forall i m, (i < nc)%nat -> (m < np)%nat -> is_finite (phis i m) = true) /\
  (is_finite (r6_Js (oc_rep o)) = true ->
     is_finite (r6_incomp (oc_rep o)) = true /\
     exists (k1 : state64 G St) n, iterate64 pf q k1 = Ok (oc_k o, n, oc_rep o) /\
       (forall m, (m < np)%nat -> is_finite (x_Js k1 m) = true) /\
       (forall r m, (r < nf)%nat -> (m < np)%nat -> is_finite (x_omegas k1 r m) = true) /\
       (forall r m, (r < nf)%nat -> (m < np)%nat -> is_finite (x_featv (oc_k o) r m) = true)).
Proof.
  intros L H. apply run64_last in H. destruct H as [(k1 & n & I & _) C].
  pose proof (iterate64_inv pf _ _ _ _ _ I) as V. split.
  - intros F i m Li Lm. destruct (C m Lm) as (m' & Lm' & ->). rewrite (vl_comp' _ _ _ _ _ _ V).
    exact (proj2 (fin_incomp pf _ _ _ _ _ V F m' Lm') i Li).
  - intros F. split; [exact (fin_Js_incomp pf _ _ _ _ _ V L F)|]. exists k1, n. split; [exact I|].
    pose proof (fin_Js pf _ _ _ _ _ V F) as A. split; [|split].
    + intros m Lm. apply (A m Lm).
    + intros r m Lr Lm. apply (A m Lm). exact Lr.
    + intros r m Lr Lm. rewrite (vl_feat' _ _ _ _ _ _ V). apply (A m Lm). exact Lr.
Qed.

(** A run that reports convergence returns finite fractions, and the volume of
    every compartment that was alive in the last step is above the threshold
    (in particular not NaN). *)
Theorem C83_converged tol inner tr left k o J phis : (1 <= np)%nat -> (Z.of_nat np <= 2 ^ 53)%Z ->
  lt64 (z_thr q) zero64 = false ->
  run64 pf q tol inner tr left k = Ok (o, J, phis) ->
  converged64 tol (oc_safe o) (oc_rep o) = true ->
  (forall i m, (i < nc)%nat -> (m < np)%nat -> is_finite (phis i m) = true) /\
  exists (k1 : state64 G St) n, iterate64 pf q k1 = Ok (oc_k o, n, oc_rep o) /\
    (forall m, (m < np)%nat -> is_finite (x_Js k1 m) = true) /\
    (forall r m, (r < nf)%nat -> (m < np)%nat -> is_finite (x_omegas k1 r m) = true) /\
    (forall m, (m < np)%nat -> mask64 (z_thr q) (x_Js k1 m) = one64 ->
       lt64 (z_thr q) (x_Js (oc_k o) m) = true).
Proof.
  intros L L53 Ht H Hc. pose proof (C83_finite _ _ _ _ _ _ _ _ L H) as [F1 F2].
  apply run64_last in H. destruct H as [(k1 & n & I & Es) C].
  pose proof (iterate64_inv pf _ _ _ _ _ I) as V.
  unfold converged64 in Hc. rewrite !andb_true_iff in Hc. destruct Hc as ((((Hs & Hi) & Ho) & HJ) & _).
  assert (FJ : fin (r6_Js (oc_rep o))).
  { rewrite (vl_e_Js _ _ _ _ _ _ V) in *. eapply amax_abs_lt. exact HJ. }
  split; [apply F1; apply F2; exact FJ|]. exists k1, n. split; [exact I|].
  pose proof (fin_Js pf _ _ _ _ _ V FJ) as A. split; [|split].
  - intros m Lm. apply (A m Lm).
  - intros r m Lr Lm. apply (A m Lm). exact Lr.
  - set (mk := vl_masks _ _ _ _ _ _ V) in *.
    assert (M : forall m, (m < np)%nat -> (exists s, mk m = B754_zero s) \/ mk m = one64).
    { intros m Lm. destruct (A m Lm) as (_ & Fm & _). fold mk in Fm.
      pose proof (vl_masks_eq _ _ _ _ _ _ V m) as E. fold mk in E. rewrite E in *.
      destruct (mask_values (z_thr q) (x_Js k1 m)) as [N|[Z|O]]; auto. rewrite N in Fm. discriminate Fm. }
    destruct (masks_sum mk np L53 M) as [Fs Es'].
    assert (En : n = Z.of_nat (ncount np (fun m => negb (eq0_64 (mk m))))).
    { rewrite (vl_n _ _ _ _ _ _ V). fold mk. apply int_exact; [exact Fs|]. rewrite Es', INR_IZR_INZ. reflexivity. }
    rewrite Es, En in Hs. apply Z.eqb_eq, Nat2Z.inj in Hs. unfold count_valid64 in Hs. symmetry in Hs.
    assert (S : forall m, (m < np)%nat -> lt64 (z_thr q) (x_Js (oc_k o) m) = negb (eq0_64 (mk m))).
    { apply ncount_same; [|exact Hs]. intros m Lm Hl. destruct (M m Lm) as [[s E]|E].
      - rewrite (vl_Js' _ _ _ _ _ _ V) in Hl. fold mk in Hl. rewrite E in Hl. exfalso. revert Hl.
        match goal with |- lt64 _ (mul64 ?x _) = true -> _ => destruct x as [a|a| |a ma ea B] end;
          cbn; try (rewrite lt_nan_r; discriminate); intros Hl;
          (enough (K : forall b, lt64 (z_thr q) (B754_zero b) = false) by (rewrite K in Hl; discriminate Hl));
          intros b; rewrite <- Ht; destruct (z_thr q) as [t|t| |t ? ? ?]; reflexivity.
      - rewrite E. reflexivity. }
    intros m Lm Hm. rewrite (S m Lm). pose proof (vl_masks_eq _ _ _ _ _ _ V m) as E. fold mk in E.
    rewrite E, Hm. reflexivity.
Qed.
End FloatRuns.
