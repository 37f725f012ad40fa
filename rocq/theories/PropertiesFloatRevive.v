(** PropertiesFloatRevive.v -- C97: revival in double precision. *)

From Flocq Require Import Core BinarySingleNaN.
From Coq Require Import Reals ZArith List Bool Arith Lia Lra.
From Verif Require Import Base ModelParts ModelKernel ModelFloat ModelFloatKernel ModelFloatParts PropertiesFloat
  ProofsKernel ProofsSteps PropertiesKernel ProofsFloatKernel ProofsRounding PropertiesRounding ProofsFloatError
  PropertiesFloatError PropertiesFloatParts ProofsFloatRevive.
Import ListNotations.
Open Scope R_scope.

(** Revival by copying is exact: no rounding happens if the threshold is a normal
    number or if the volumes of the donors are not tiny.  Every compartment ends up
    with a positive volume and with the fractions of a living one, which passed on a
    part of its volume, and nothing is lost: the volumes that descend from a living
    compartment add up to its volume, in exact arithmetic. *)
Theorem C97_copy {G} (pf : platform64 G) (ops : rng_ops G) np thr (J : vec64) (t : mat64) g J' t' g' :
  same_draws pf ops -> rng_contract ops -> is_finite thr = true -> 0 <= B2R thr ->
  (forall m, (m < np)%nat -> is_finite (J m) = true) ->
  bpow radix2 (-1022) <= B2R thr \/
    (forall m, (m < np)%nat -> 2 * B2R thr < B2R (J m) -> bpow radix2 (-1021 + Z.of_nat np) <= B2R (J m)) ->
  revive_copy64 pf np J t thr g = Ok (J', t', g') ->
  (forall m, (m < np)%nat -> is_finite (J' m) = true /\ B2R thr < B2R (J' m)) /\
  (exists o : nat -> nat,
    (forall m, (m < np)%nat -> (o m < np)%nat /\ B2R thr < B2R (J (o m)) /\ forall i, B2R (t' i m) = B2R (t i (o m))) /\
    (forall m, (m < np)%nat -> B2R thr < B2R (J m) -> o m = m) /\
    (forall a, (a < np)%nat -> B2R thr < B2R (J a) ->
       rsum np (fun m => if Nat.eqb (o m) a then B2R (J' m) else 0) = B2R (J a))) /\
  rsum np (fun m => B2R (J' m)) = rsum np (fun m => if Rlt_dec (B2R thr) (B2R (J m)) then B2R (J m) else 0) /\
  (forall i, rsum np (fun m => B2R (J' m) * B2R (t' i m)) =
             rsum np (fun m => (if Rlt_dec (B2R thr) (B2R (J m)) then B2R (J m) else 0) * B2R (t i m))).
Proof.
  intros SD RC Ft Pt F Gr H. pose proof (copy_sim pf ops np thr SD Ft Pt J t g F Gr) as S. rewrite H in S.
  destruct S as (F' & n & Jr & tr & E & E1 & E2).
  destruct (C07_copy_conserves ops np (val1 J) (val2 t) (B2R thr) g n Jr tr g' RC Pt E) as (_ & (o & O1 & O2 & O3) & O4 & O5 & O6).
  split; [intros m L; split; [apply F', L|rewrite <- E1; apply O4, L]|]. split; [|split].
  - exists o. split; [|split].
    + intros m L. destruct (O1 m L) as (P1 & P2 & P3). split; [exact P1|]. split; [exact P2|].
      intros i. rewrite <- E2. apply P3.
    + exact O2.
    + intros a L A. change (B2R (J a)) with (val1 J a). rewrite <- (O3 a L A). apply rsum_ext. intros m _. destruct (Nat.eqb (o m) a); [symmetry; apply E1|reflexivity].
  - rewrite <- (rsum_ext np Jr) by (intros; apply E1). exact O5.
  - intros i. specialize (O6 i). rewrite <- (rsum_ext np (fun m => Jr m * tr i m)) by (intros; rewrite E1, E2; reflexivity).
    exact O6.
Qed.

(** It cannot fail as long as the volumes of the living compartments exceed
    [2 * thr * (np - 1)], and otherwise only for want of donors. *)
Theorem C97_copy_succeeds {G} (pf : platform64 G) (ops : rng_ops G) np thr (J : vec64) (t : mat64) g :
  same_draws pf ops -> rng_contract ops -> is_finite thr = true -> 0 <= B2R thr ->
  (forall m, (m < np)%nat -> is_finite (J m) = true) ->
  bpow radix2 (-1022) <= B2R thr \/
    (forall m, (m < np)%nat -> 2 * B2R thr < B2R (J m) -> bpow radix2 (-1021 + Z.of_nat np) <= B2R (J m)) ->
  (2 * B2R thr * (INR np - 1) < rsum np (fun m => if Rlt_dec (B2R thr) (B2R (J m)) then B2R (J m) else 0) ->
   exists J' t' g', revive_copy64 pf np J t thr g = Ok (J', t', g')) /\
  (forall e, revive_copy64 pf np J t thr g = Err e -> e = DonorsExhausted).
Proof.
  intros SD RC Ft Pt F Gr. pose proof (copy_sim pf ops np thr SD Ft Pt J t g F Gr) as S.
  split.
  - intros V. destruct (C08_copy_succeeds ops np (val1 J) (val2 t) (B2R thr) g RC Pt V) as (n & Jr & tr & g' & E).
    destruct (revive_copy64 pf np J t thr g) as [[[J' t'] g'']|e]; [eauto|congruence].
  - intros e H. rewrite H in S. apply (C08_copy_only_failure ops _ _ _ _ _ _ RC Pt S).
Qed.

(** Random revival revives the compartments that exact arithmetic would revive, with
    the same draws, and its fields are those of exact arithmetic up to ten units in
    the last place of the largest possible value; nothing else is touched. *)
Theorem C97_random {G} (pf : platform64 G) (ops : rng_ops G) nf np thr (J : vec64) (t : mat64) scaler B S g :
  same_draws pf ops -> rng_contract ops -> (1 <= np)%nat -> is_finite thr = true ->
  (forall m, (m < np)%nat -> is_finite (J m) = true) ->
  (forall i m, (i < nf)%nat -> (m < np)%nat -> is_finite (t i m) = true /\ Rabs (B2R (t i m)) <= B) ->
  is_finite scaler = true /\ Rabs (B2R scaler) <= S -> 1 <= B -> 1 <= S -> 2 * (B * S) <= bpow radix2 1000 ->
  let '(c, J', t', g') := revive_random64 pf nf np J t thr g scaler in
  let '(cr, Jr, tr, gr) := revive_by_random ops nf np (fun m => B2R (J m)) (fun i m => B2R (t i m)) (B2R thr) g (B2R scaler) in
  c = cr /\ g' = gr /\
  (forall m, (m < np)%nat -> is_finite (J' m) = true /\ B2R (J' m) = Jr m) /\
  (forall i m, (i < nf)%nat -> (m < np)%nat -> B2R (J m) <= B2R thr ->
     is_finite (t' i m) = true /\ Rabs (B2R (t' i m) - tr i m) <= 10 * (B + B * S) / 2 ^ 53) /\
  (forall i m, (m < np)%nat -> B2R thr < B2R (J m) -> t' i m = t i m /\ tr i m = B2R (t i m)).
Proof.
  intros SD RC Ln Ft FJ FT FS HB HS HT.
  pose proof (random_sim pf ops nf np thr J t scaler B S SD RC Ft FJ FT FS HB HS HT g Ln) as R.
  destruct (revive_random64 _ _ _ _ _ _ _ _) as [[[c J'] t'] g'].
  change (fun m => B2R (J m)) with (val1 J). change (fun i m => B2R (t i m)) with (val2 t).
  destruct (revive_by_random _ _ _ _ _ _ _ _) as [[[cr Jr] tr] gr]. destruct R as (R1 & R2 & R3 & R4 & R5).
  split; [exact R1|]. split; [exact R2|]. split; [exact R3|]. split; [|exact R5].
  intros i m Li Lm H. destruct (R4 i m Li Lm H) as (N1 & _ & _ & N2). split; [exact N1|].
  apply Rle_trans with (1 := N2). unfold eps64. right. field.
Qed.

(* ------------------------------------------------------------------ *)
(** * The budget *)

Section Budget.
Context {G St : Type} (pf : platform64 G) (q : kernel64).
Let np := z_np q.

Lemma random_count nf (J : vec64) t thr g scaler c J' t' g' :
  revive_random64 pf nf np J t thr g scaler = (c, J', t', g') -> (c <= np)%nat /\ (c = O -> g' = g).
Proof using.
  unfold revive_random64.
  cut (forall n c J' t' g', for_ n (fun m '(count, J, t', g) =>
     if dead64 thr (J m) then
       let '(t'', g') := redraw64 pf nf np t scaler m (t', g) in (S count, upd J m one64, t'', g')
     else (count, J, t', g)) (O, J, t, g) = (c, J', t', g') -> (c <= n)%nat /\ (c = O -> g' = g)).
  { intros C. apply C. }
  clear c J' t' g'. induction n as [|n IH]; intros c J' t' g'.
  - cbn. intros H. injection H as <- <- <- <-. split; [lia|auto].
  - cbn [for_].
    match goal with |- context [for_ n ?f (O, J, t, g)] => destruct (for_ n f (O, J, t, g)) as [[[c1 J1] t1] g1] end.
    specialize (IH _ _ _ _ eq_refl). destruct (dead64 thr (J1 n)).
    + destruct (redraw64 _ _ _ _ _ _ _) as [t2 g2]. intros H. injection H as <- <- <- <-. split; [lia|discriminate].
    + intros H. injection H as <- <- <- <-. split; [lia|]. apply IH.
Qed.

Lemma maybe_budget tries c (k : state64 G St) c' k' : maybe_revive64 pf q tries c k = (c', k') ->
  (c <= c')%nat /\ (Z.of_nat c' <= Z.max (Z.of_nat c) (tries - 1 + Z.of_nat np))%Z /\ (c' = c -> x_g k' = x_g k).
Proof using.
  unfold maybe_revive64. destruct (Z.ltb_spec (Z.of_nat c) tries) as [L|L].
  - destruct (Nat.eqb _ _); [intros H; injection H as <- <-; repeat split; lia|].
    destruct (revive_random64 _ _ _ _ _ _ _ _) as [[[n J] t] g] eqn:E. apply random_count in E. intros H. injection H as <- <-.
    destruct E as [E1 E2]. repeat split; try lia. cbn. intros H. apply E2. lia.
  - intros H. injection H as <- <-. repeat split; lia.
Qed.
Lemma steps_budget tries : forall n (w w' : mstate64 G St), steps64 pf q tries n w = Ok w' ->
  (u_count w <= u_count w')%nat /\
  (Z.of_nat (u_count w') <= Z.max (Z.of_nat (u_count w)) (tries - 1 + Z.of_nat np))%Z /\
  (u_count w' = u_count w -> x_g (u_k w') = x_g (u_k w)).
Proof using.
  induction n as [|n IH]; intros w w' H.
  - injection H as <-. repeat split; lia.
  - cbn in H. apply bind_Ok in H. destruct H as (w1 & H1 & H2). specialize (IH _ _ H1). unfold one_step64 in H2.
    destruct (maybe_revive64 pf q tries (u_count w1) (u_k w1)) as [c k] eqn:E. apply maybe_budget in E.
    destruct (iterate64 pf q k) as [[[k' nv] rep]|] eqn:I; [|discriminate]. cbn in H2. injection H2 as <-.
    cbn [u_count u_k]. apply iterate64_inv in I. repeat split; try lia.
    intros Hc. rewrite (vl_g' _ _ _ _ _ _ I). destruct E as (E1 & E2 & E3). destruct IH as (I1 & I2 & I3). rewrite E3, I3 by lia. reflexivity.
Qed.
Lemma metastep_budget inner tries (k k' : state64 G St) rep c safe : metastep64 pf q inner tries k = Ok (k', rep, c, safe) ->
  (Z.of_nat c <= Z.max 0 (tries - 1 + Z.of_nat np))%Z /\ (c = O -> x_g k' = x_g k).
Proof using.
  unfold metastep64. intros H. apply bind_Ok in H. destruct H as (w & H1 & H2). apply steps_budget in H1.
  destruct (u_rep w); [|discriminate]. injection H2 as <- _ <- _. cbn [u_count u_k] in H1. destruct H1 as (A & B & C). split; [lia|exact C].
Qed.
Lemma metastep_spent inner tries (k k' : state64 G St) rep c safe : (tries <= 0)%Z ->
  metastep64 pf q inner tries k = Ok (k', rep, c, safe) -> c = O.
Proof using.
  intros Lt. unfold metastep64. intros H. apply bind_Ok in H. destruct H as (w & H1 & H2).
  destruct (u_rep w); [|discriminate]. injection H2 as _ _ <- _.
  cut (forall n (w0 w' : mstate64 G St), steps64 pf q tries n w0 = Ok w' -> u_count w' = u_count w0).
  { intros C. rewrite (C _ _ _ H1). reflexivity. }
  clear - Lt. intros n. induction n as [|n IH]; intros w0 w' H; [injection H as <-; reflexivity|].
  cbn in H. apply bind_Ok in H. destruct H as (w1 & H1 & H2). rewrite <- (IH _ _ H1). unfold one_step64, maybe_revive64 in H2.
  destruct (Z.ltb_spec (Z.of_nat (u_count w1)) tries) as [L|L]; [lia|].
  destruct (iterate64 _ _ _) as [[[k' nv] rep]|]; [|discriminate]. injection H2 as <-. reflexivity.
Qed.

Lemma loop_budget tol inner : forall tr (k : state64 G St) left last o,
  loop64 pf q tol inner tr k left last = Ok o ->
  (match last with Some o' => oc_left o' = left /\ x_g (oc_k o') = x_g k | None => True end) ->
  (oc_left o <= left)%Z /\ ((left <= 0)%Z -> oc_left o = left) /\ ((0 < left)%Z -> (- Z.of_nat np < oc_left o)%Z) /\
  (oc_left o = left -> x_g (oc_k o) = x_g k).
Proof using.
  induction tr as [|tr IH]; intros k left last o H HL.
  - cbn in H. destruct last as [o'|]; [|discriminate]. injection H as <-. destruct HL. repeat split; auto; lia.
  - cbn in H. apply bind_Ok in H. destruct H as ([[[k' rep] c] safe] & H1 & H2).
    pose proof (metastep_budget _ _ _ _ _ _ _ H1) as [M1 M2].
    assert (M3 : (left <= 0)%Z -> c = O) by (intros L; apply (metastep_spent _ _ _ _ _ _ _ L H1)).
    destruct (converged64 tol safe rep).
    + injection H2 as <-. cbn [oc_left oc_k]. repeat split; try lia. intros E. apply M2. lia.
    + apply IH in H2; [|cbn; auto]. destruct H2 as (A1 & A2 & A3 & A4).
      assert (Q : (left <= 0)%Z -> oc_left o = left) by (intros L; specialize (M3 L); lia).
      repeat split; try lia.
      intros E. rewrite A4 by lia. apply M2. lia.
Qed.

(** The budget is a budget in double precision too: a run never uses more revivals
    than the number left plus the number of compartments minus one, none if nothing is
    left, and draws no random number before the final copying unless it revives. *)
Theorem C97_budget tol inner tr left (k : state64 G St) o J phis :
  run64 pf q tol inner tr left k = Ok (o, J, phis) ->
  (oc_left o <= left)%Z /\ ((left <= 0)%Z -> oc_left o = left) /\ ((0 < left)%Z -> (- Z.of_nat (z_np q) < oc_left o)%Z) /\
  (oc_left o = left -> x_g (oc_k o) = x_g k).
Proof using.
  unfold run64. intros H. apply bind_Ok in H. destruct H as (o' & H1 & H2).
  apply bind_Ok in H2. destruct H2 as ([[J' p'] g'] & H2 & H3). injection H3 as <- <- <-.
  apply (loop_budget _ _ _ _ _ _ _ H1 I).
Qed.
End Budget.

(** The beginning of a step: both arithmetics decide in the same way whether to
    revive, and end up with the same volumes and count and nearly the same fields. *)
Theorem C97_revive_step {G St St'} (pf : platform64 G) (ops : rng_ops G) q (rq : kernel) tries c
    (k : state64 G St) (rk : kstate G St') B S c' k' cr rk' :
  same_draws pf ops -> rng_contract ops -> (1 <= z_np q)%nat ->
  q_nf rq = z_nf q -> q_np rq = z_np q -> is64 (z_thr q) (q_thr rq) -> is64 (z_scaler q) (q_scaler rq) ->
  v_Js rk = (fun m => B2R (x_Js k m)) -> v_omegas rk = (fun r m => B2R (x_omegas k r m)) -> v_g rk = x_g k ->
  (forall m, (m < z_np q)%nat -> is_finite (x_Js k m) = true) ->
  (forall r m, (r < z_nf q)%nat -> (m < z_np q)%nat -> is_finite (x_omegas k r m) = true /\ Rabs (B2R (x_omegas k r m)) <= B) ->
  Rabs (q_scaler rq) <= S -> 1 <= B -> 1 <= S -> 2 * (B * S) <= bpow radix2 1000 ->
  maybe_revive64 pf q tries c k = (c', k') -> maybe_revive ops rq tries c rk = (cr, rk') ->
  c' = cr /\ x_g k' = v_g rk' /\
  (forall m, (m < z_np q)%nat -> is64 (x_Js k' m) (v_Js rk' m)) /\
  (forall r m, (r < z_nf q)%nat -> (m < z_np q)%nat ->
     is_finite (x_omegas k' r m) = true /\ Rabs (B2R (x_omegas k' r m) - v_omegas rk' r m) <= 10 * (B + B * S) / 2 ^ 53).
Proof.
  intros SD RC Ln E1 E2 [F3 E3] [F4 E4] EJ Ew Eg FJ FW LS HB HS HT M Mr.
  assert (P : 0 <= 10 * (B + B * S) / 2 ^ 53).
  { assert (0 <= B * S) by (apply Rmult_le_pos; lra). lra. }
  assert (Id : forall r m, (r < z_nf q)%nat -> (m < z_np q)%nat ->
    is_finite (x_omegas k r m) = true /\ Rabs (B2R (x_omegas k r m) - v_omegas rk r m) <= 10 * (B + B * S) / 2 ^ 53).
  { intros r m Lr Lm. split; [apply FW; assumption|]. rewrite Ew, Rminus_diag_eq, Rabs_R0 by reflexivity. exact P. }
  assert (IdJ : forall m, (m < z_np q)%nat -> is64 (x_Js k m) (v_Js rk m)).
  { intros m L. rewrite EJ. split; [apply FJ, L|reflexivity]. }
  unfold maybe_revive64 in M. unfold maybe_revive in Mr. destruct (Z.ltb (Z.of_nat c) tries).
  - assert (EC : count_valid64 (z_np q) (x_Js k) (z_thr q) = count_valid (q_np rq) (v_Js rk) (q_thr rq)).
    { unfold count_valid64, count_valid. rewrite E2, EJ, <- E3. apply ncount_ext. intros m L. apply alive_test; [exact F3|apply FJ, L]. }
    rewrite EC, E2 in M. rewrite E2 in Mr. destruct (Nat.eqb _ _).
    + injection M as <- <-. injection Mr as <- <-. auto.
    + pose proof (C97_random pf ops (z_nf q) (z_np q) (z_thr q) (x_Js k) (x_omegas k) (z_scaler q) B S (x_g k)
        SD RC Ln F3 FJ FW) as R. rewrite E4 in R. specialize (R (conj F4 LS) HB HS HT).
      rewrite E1, EJ, Ew, <- E3, Eg in Mr.
      destruct (revive_random64 _ _ _ _ _ _ _ _) as [[[c1 J1] t1] g1].
      destruct (revive_by_random _ _ _ _ _ _ _ _) as [[[c2 J2] t2] g2]. destruct R as (<- & <- & R3 & R4 & R5).
      injection M as <- <-. injection Mr as <- <-. cbn [x_g v_g x_Js v_Js x_omegas v_omegas].
      split; [reflexivity|]. split; [reflexivity|]. split; [exact R3|].
      intros r m Lr Lm. destruct (Rle_lt_dec (B2R (x_Js k m)) (B2R (z_thr q))) as [D|D]; [apply R4; assumption|].
      destruct (R5 r m Lm D) as [-> ->]. split; [apply FW; assumption|]. rewrite Rminus_diag_eq, Rabs_R0 by reflexivity. exact P.
  - injection M as <- <-. injection Mr as <- <-. auto.
Qed.
