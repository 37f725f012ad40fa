(** ProofsFloatKernel.v -- NaN and finiteness through the binary64 kernel. *)

From Flocq Require Import Core BinarySingleNaN.
From Coq Require Import Reals ZArith List Bool Arith Lia Lra.
From Verif Require Import Base ModelFloat ModelFloatKernel.
Import ListNotations.

Definition fin (x : f64) : Prop := is_finite x = true.
Notation NaN := (@B754_nan prec64 emax64).

Lemma fin_not_nan x : fin x -> x <> NaN. Proof. intros H E. subst x. discriminate H. Qed.

Lemma add_fin x y : fin (add64 x y) -> fin x /\ fin y.
Proof.
  intros H. destruct x as [a|a| |a ma ea Ha], y as [b|b| |b mb eb Hb]; try (split; reflexivity);
    try destruct a; try destruct b; discriminate H.
Qed.
Lemma minus_fin x y : fin (minus64 x y) -> fin x /\ fin y.
Proof.
  intros H. destruct x as [a|a| |a ma ea Ha], y as [b|b| |b mb eb Hb]; try (split; reflexivity);
    try destruct a; try destruct b; discriminate H.
Qed.
Lemma mul_fin x y : fin (mul64 x y) -> fin x /\ fin y.
Proof.
  intros H. destruct x as [a|a| |a ma ea Ha], y as [b|b| |b mb eb Hb]; try (split; reflexivity);
    try destruct a; try destruct b; discriminate H.
Qed.
Lemma div_fin x y : fin (div64 x y) -> fin x.
Proof.
  intros H. destruct x as [a|a| |a ma ea Ha], y as [b|b| |b mb eb Hb]; try reflexivity;
    try destruct a; try destruct b; discriminate H.
Qed.
Lemma opp_fin x : fin (opp64 x) <-> fin x. Proof. destruct x; split; auto. Qed.
Lemma abs_fin x : fin (abs64 x) <-> fin x. Proof. destruct x; split; auto. Qed.

Lemma add_nan_l y : add64 NaN y = NaN. Proof. destruct y; reflexivity. Qed.
Lemma add_nan_r x : add64 x NaN = NaN. Proof. destruct x; reflexivity. Qed.
Lemma minus_nan_l y : minus64 NaN y = NaN. Proof. destruct y; reflexivity. Qed.
Lemma minus_nan_r x : minus64 x NaN = NaN. Proof. destruct x; reflexivity. Qed.
Lemma mul_nan_l y : mul64 NaN y = NaN. Proof. destruct y; reflexivity. Qed.
Lemma mul_nan_r x : mul64 x NaN = NaN. Proof. destruct x; reflexivity. Qed.
Lemma div_nan_l y : div64 NaN y = NaN. Proof. destruct y; reflexivity. Qed.
Lemma div_nan_r x : div64 x NaN = NaN. Proof. destruct x; reflexivity. Qed.
#[global] Hint Rewrite add_nan_l add_nan_r minus_nan_l minus_nan_r mul_nan_l mul_nan_r
  div_nan_l div_nan_r : nan.

Lemma nan_dec (x : f64) : x = NaN \/ x <> NaN.
Proof. destruct x; auto; right; discriminate. Qed.

(* ------------------------------------------------------------------ *)
(** * Loops *)

Lemma for_nan n (body : nat -> f64 -> f64) s :
  (forall i, (i < n)%nat -> body i NaN = NaN) ->
  (s = NaN \/ exists i, (i < n)%nat /\ forall a, body i a = NaN) ->
  for_ n body s = NaN.
Proof.
  induction n as [|n IH]; intros K H.
  - destruct H as [H|(i & L & _)]; [exact H|lia].
  - cbn [for_]. destruct H as [H|(i & L & H)].
    + rewrite IH; auto.
    + destruct (Nat.eq_dec i n) as [->|N]; [apply H|].
      rewrite IH; auto. right. exists i. split; [lia|exact H].
Qed.
Lemma for_fin n (body : nat -> f64 -> f64) s (P : nat -> Prop) :
  (forall i a, (i < n)%nat -> fin (body i a) -> fin a /\ P i) ->
  fin (for_ n body s) -> fin s /\ forall i, (i < n)%nat -> P i.
Proof.
  induction n as [|n IH]; intros K H.
  - split; [exact H|]. intros; lia.
  - cbn [for_] in H. apply K in H; [|lia]. destruct H as [H Pn].
    apply IH in H; [|intros i a L; apply K; lia]. destruct H as [Hs HP]. split; auto.
    intros i L. destruct (Nat.eq_dec i n) as [->|N]; auto. apply HP. lia.
Qed.

Lemma each_nan {St} (cs : list (cons64 St * St)) (body : cons64 St * St -> f64 -> f64) s :
  (forall o, body o NaN = NaN) -> s = NaN -> each cs body s = NaN.
Proof. unfold each. revert s. induction cs; intros s K H; cbn; auto. apply IHcs; auto. subst s. apply K. Qed.
Lemma each_fin {St} (cs : list (cons64 St * St)) (body : cons64 St * St -> f64 -> f64) s :
  (forall o a, fin (body o a) -> fin a) -> fin (each cs body s) -> fin s.
Proof. unfold each. revert s. induction cs; intros s K H; cbn in H; auto. apply IHcs in H; auto. eapply K; eauto. Qed.

Lemma sum_nan n (v : vec64) : (exists i, (i < n)%nat /\ v i = NaN) -> sum64 n v = NaN.
Proof.
  intros (i & L & H). apply for_nan.
  - intros; apply add_nan_l.
  - right. exists i. split; auto. intros a. rewrite H. apply add_nan_r.
Qed.
Lemma sum_fin n (v : vec64) : fin (sum64 n v) -> forall i, (i < n)%nat -> fin (v i).
Proof. intros H. eapply for_fin in H; [destruct H as [_ H]; exact H|]. cbn. intros i a _. apply add_fin. Qed.

(* ------------------------------------------------------------------ *)
(** * Extremes *)

Lemma isnan_spec x : if isnan64 x then x = NaN else x <> NaN.
Proof. destruct x; cbn; congruence. Qed.

Lemma amax_nan n (v : vec64) : (exists i, (i < n)%nat /\ v i = NaN) -> amax64 n v = NaN.
Proof.
  intros (i & L & H). unfold amax64. apply for_nan.
  - intros. reflexivity.
  - destruct i as [|i]; [left; exact H|right]. exists i. split; [lia|]. intros a. rewrite H.
    pose proof (isnan_spec a). destruct (isnan64 a); auto.
Qed.
Lemma amin_nan n (v : vec64) : (exists i, (i < n)%nat /\ v i = NaN) -> amin64 n v = NaN.
Proof.
  intros (i & L & H). unfold amin64. apply for_nan.
  - intros. reflexivity.
  - destruct i as [|i]; [left; exact H|right]. exists i. split; [lia|]. intros a. rewrite H.
    pose proof (isnan_spec a). destruct (isnan64 a); auto.
Qed.
(** one update of the running maximum *)
Lemma amax_upd a x :
  let r := if isnan64 a then a else if isnan64 (abs64 x) then abs64 x
           else if lt64 a (abs64 x) then abs64 x else a in
  (a = NaN \/ a = B754_infinity false -> r = NaN \/ r = B754_infinity false) /\
  (fin a -> r = NaN \/ r = B754_infinity false \/ (fin r /\ fin x)).
Proof.
  cbn zeta. split.
  - intros [->| ->]; [left; reflexivity|]. destruct x as [s|s| |s m e B]; cbn; auto.
  - intros F. destruct x as [s|s| |s m e B].
    + right; right. split; [|reflexivity]. destruct a; try discriminate F; cbn [isnan64 is_nan abs64 Babs];
        destruct (lt64 _ _); reflexivity.
    + right; left. destruct a as [t|t| |t m e B]; try discriminate F; [reflexivity|].
      destruct t; reflexivity.
    + left. destruct a; try discriminate F; reflexivity.
    + right; right. split; [|reflexivity]. destruct a; try discriminate F; cbn [isnan64 is_nan abs64 Babs];
        destruct (lt64 _ _); reflexivity.
Qed.
(** a finite maximum of absolute values: every value is finite *)
Lemma amax_abs_fin n (v : vec64) : fin (amax64 n (fun m => abs64 (v m))) ->
  forall i, (i < n)%nat -> fin (v i).
Proof.
  unfold amax64. intros H.
  assert (T : forall k, let r := for_ k (fun i acc =>
      if isnan64 acc then acc else if isnan64 (abs64 (v (S i))) then abs64 (v (S i))
      else if lt64 acc (abs64 (v (S i))) then abs64 (v (S i)) else acc) (abs64 (v O)) in
    (r = NaN \/ r = B754_infinity false) \/ (fin r /\ forall i, (i <= k)%nat -> fin (v i))).
  { induction k as [|k IH]; cbn [for_]; cbn zeta in *.
    - destruct (v O) eqn:E; cbn; auto;
        right; split; try reflexivity; intros i L; replace i with O by lia; rewrite E; reflexivity.
    - match goal with |- context [for_ k ?b ?s] => pose proof (amax_upd (for_ k b s) (v (S k))) as [U1 U2] end.
      destruct IH as [IH|[F A]]; [left; auto|]. destruct (U2 F) as [U|[U|[U Fx]]]; auto.
      right. split; auto. intros i L. destruct (Nat.eq_dec i (S k)) as [->|N]; auto. apply A. lia. }
  intros i L. destruct (T (n - 1)%nat) as [T'|[_ T']]; [|apply T'; lia]. exfalso. cbn zeta in T'.
  destruct T' as [T'|T']; rewrite T' in H; discriminate H.
Qed.
(** and conversely *)
Lemma amax_abs_fin_conv n (v : vec64) : (1 <= n)%nat -> (forall i, (i < n)%nat -> fin (v i)) ->
  fin (amax64 n (fun m => abs64 (v m))).
Proof.
  intros L H. unfold amax64. apply (for_ind (fun _ (r : f64) => fin r)).
  - apply abs_fin, H. lia.
  - intros i a Li Fa. pose proof (proj2 (abs_fin (v (S i))) (H (S i) ltac:(lia))) as Fx.
    destruct (isnan64 a), (isnan64 (abs64 (v (S i)))), (lt64 a (abs64 (v (S i)))); auto.
Qed.

(* ------------------------------------------------------------------ *)
(** * The intermediate values of one iteration *)

Section Iteration.
Context {G St : Type} (pf : platform64 G).

Record values64 (q : kernel64) (k : state64 G St) (k' : state64 G St) (n : Z) (rep : report64) := {
  vl_masks : vec64; vl_Js : vec64; vl_Qs : vec64; vl_f : vec64; vl_phis : mat64; vl_incomp : vec64;
  vl_pot : mat64; vl_cs : list (cons64 St * St); vl_xi : vec64; vl_otemp : mat64; vl_le : vec64;
  vl_mean : f64; vl_dJ : vec64; vl_factor : f64; vl_Js1 : vec64;
  vl_masks_eq : forall m, vl_masks m = mask64 (z_thr q) (x_Js k m);
  vl_n : n = int64 pf (sum64 (z_np q) vl_masks);
  vl_Js_eq : forall m, vl_Js m = mul64 (x_Js k m) (vl_masks m);
  vl_total : (0 < z_nc q)%nat -> eq0_64 (sum64 (z_np q) vl_Js) = false;
  vl_Qs_eq : forall i, vl_Qs i =
    div64 (sum64 (z_np q) (fun m => mul64 (boltz64 pf q (x_omegas k) i m) (vl_Js m)))
          (sum64 (z_np q) vl_Js);
  vl_f_eq : forall i, (i < z_nc q)%nat -> prefactor64 (z_ensemble q) i (vl_Qs i) = Ok (vl_f i);
  vl_phis_eq : forall i m, vl_phis i m = mul64 (mul64 (vl_f i) (boltz64 pf q (x_omegas k) i m)) (vl_masks m);
  vl_incomp_eq : forall m, vl_incomp m =
    mul64 (for_ (z_nc q) (fun i acc => add64 acc (vl_phis i m)) (opp64 one64)) (vl_masks m);
  vl_pot_eq : vl_pot = z_potential q (z_feat q vl_phis);
  vl_cs_eq : vl_cs = prepare64 (z_feat q vl_phis) vl_Js vl_masks (x_cons k);
  vl_xi_eq : forall m, vl_xi m =
    xi64 (z_nf q) (z_coef q (z_feat q vl_phis)) vl_incomp vl_masks (x_omegas k) vl_pot vl_cs m;
  vl_otemp_eq : forall r m, vl_otemp r m = otemp64 vl_pot vl_cs vl_xi r m;
  vl_le_eq : forall m, vl_le m =
    energy64 (z_nf q) (z_ivd q vl_pot (z_feat q vl_phis)) (z_svd q vl_phis) vl_xi vl_incomp vl_cs
      vl_otemp (z_feat q vl_phis) m;
  vl_n_pos : n <> 0%Z;
  vl_mean_eq : vl_mean = div64 (sum64 (z_np q) (fun m => mul64 (vl_le m) (vl_Js m))) (ofZ64 n);
  vl_dJ_eq : forall m, vl_dJ m = mul64 (minus64 vl_mean (vl_le m)) (vl_masks m);
  vl_factor_eq : sdiv64 (z_ub q) (pymax64 (mul64 (r6_Js rep) (z_acc_J q)) (z_ub q)) = Ok vl_factor;
  vl_Js1_eq : forall m, vl_Js1 m =
    mul64 (add64 (vl_Js m) (mul64 (mul64 vl_factor (z_acc_J q)) (vl_dJ m))) (vl_masks m);
  vl_Js' : forall m, x_Js k' m =
    mul64 (add64 (vl_Js1 m) (minus64 one64 (div64 (sum64 (z_np q) vl_Js1) (ofZ64 n)))) (vl_masks m);
  vl_omegas' : forall r m, x_omegas k' r m =
    mul64 (add64 (x_omegas k r m) (mul64 (mul64 vl_factor (z_acc_w q))
      (mul64 (minus64 (vl_otemp r m) (x_omegas k r m)) (vl_masks m)))) (vl_masks m);
  vl_comp' : x_comp k' = vl_phis;
  vl_feat' : x_featv k' = z_feat q vl_phis;
  vl_g' : x_g k' = x_g k;
  vl_cons' : x_cons k' = fst (evolve64 (mul64 vl_factor (z_acc_w q)) vl_masks zero64 vl_cs);
  vl_e_incomp : r6_incomp rep = amax64 (z_np q) (fun m => abs64 (vl_incomp m));
  vl_e_Js : r6_Js rep = amax64 (z_np q) (fun m => abs64 (vl_dJ m));
  vl_e_omega : r6_omega rep = omega_error64 (z_nf q) (z_np q)
    (fun r m => mul64 (minus64 (vl_otemp r m) (x_omegas k r m)) (vl_masks m));
  vl_e_cons : r6_cons rep = snd (evolve64 (mul64 vl_factor (z_acc_w q)) vl_masks zero64 vl_cs)
}.

Lemma prefactors_ok e Qs n f : prefactors64 e Qs n = Ok f ->
  forall i, (i < n)%nat -> prefactor64 e i (Qs i) = Ok (f i).
Proof.
  revert f. induction n as [|n IH]; intros f H i L; [lia|]. cbn in H.
  destruct (prefactors64 e Qs n) as [f0|] eqn:E; [|discriminate]. cbn in H.
  destruct (prefactor64 e n (Qs n)) as [x|] eqn:Ex; [|discriminate]. cbn in H. injection H as <-.
  unfold upd. destruct (Nat.eqb_spec i n) as [->|N]; [exact Ex|]. apply IH; [reflexivity|lia].
Qed.

Lemma iterate64_inv q (k k' : state64 G St) n rep :
  iterate64 pf q k = Ok (k', n, rep) -> values64 q k k' n rep.
Proof.
  intros H. unfold iterate64 in H.
  destruct (Qs64 q _ _) as [Qs|] eqn:EQ; [|discriminate]. cbn [bind] in H.
  destruct (prefactors64 _ Qs _) as [f|] eqn:Ef; [|discriminate]. cbn [bind] in H.
  destruct (Z.eqb _ 0) eqn:En; [discriminate|].
  destruct (sdiv64 _ _) as [factor|] eqn:Es; [|discriminate]. cbn [bind] in H.
  destruct (evolve64 _ _ _ _) as [cs' residue] eqn:Ec.
  injection H as <- <- <-.
  apply Z.eqb_neq in En. unfold Qs64 in EQ.
  destruct (andb _ _) eqn:Et in EQ; [discriminate|]. injection EQ as <-.
  eapply Build_values64; cbn [x_omegas x_Js x_comp x_featv x_cons x_g r6_incomp r6_omega r6_Js r6_cons];
    try (intros; reflexivity); try eassumption.
  - intros L. apply Nat.ltb_lt in L. rewrite L in Et. exact Et.
  - cbn beta. intros i L. exact (prefactors_ok _ _ _ _ Ef i L).
  - cbn beta. match type of Ec with ?x = _ => change (cs' = fst x) end. rewrite Ec. reflexivity.
  - cbn beta. match type of Ec with ?x = _ => change (residue = snd x) end. rewrite Ec. reflexivity.
Qed.
End Iteration.

(* ------------------------------------------------------------------ *)
(** * Finite errors come from finite numbers *)

Section Finite.
Context {G St : Type} (pf : platform64 G).
Variables (q : kernel64) (k k' : state64 G St) (n : Z) (rep : report64).
Hypothesis V : values64 pf q k k' n rep.
Local Notation np := (z_np q).

Lemma fin_incomp : fin (r6_incomp rep) -> forall m, (m < np)%nat ->
  fin (vl_masks _ _ _ _ _ _ V m) /\ forall i, (i < z_nc q)%nat -> fin (vl_phis _ _ _ _ _ _ V i m).
Proof.
  intros F m L. rewrite (vl_e_incomp _ _ _ _ _ _ V) in F. pose proof (amax_abs_fin _ _ F m L) as Fm.
  cbv beta in Fm. rewrite (vl_incomp_eq _ _ _ _ _ _ V) in Fm. apply mul_fin in Fm.
  destruct Fm as [Fs Fk]. split; [exact Fk|].
  eapply for_fin in Fs; [destruct Fs as [_ H]; exact H|]. cbn beta. intros i a _. apply add_fin.
Qed.

Lemma fin_Js : fin (r6_Js rep) -> forall m, (m < np)%nat ->
  fin (x_Js k m) /\ fin (vl_masks _ _ _ _ _ _ V m) /\
  (forall r, (r < z_nf q)%nat ->
     fin (x_omegas k r m) /\ fin (vl_otemp _ _ _ _ _ _ V r m) /\ fin (z_feat q (vl_phis _ _ _ _ _ _ V) r m)) /\
  (forall i, (i < z_nc q)%nat -> fin (vl_phis _ _ _ _ _ _ V i m)) /\
  fin (vl_incomp _ _ _ _ _ _ V m) /\ fin (vl_xi _ _ _ _ _ _ V m) /\ fin (vl_le _ _ _ _ _ _ V m).
Proof.
  intros F m L. rewrite (vl_e_Js _ _ _ _ _ _ V) in F. pose proof (amax_abs_fin _ _ F m L) as Fm.
  cbv beta in Fm. rewrite (vl_dJ_eq _ _ _ _ _ _ V) in Fm. apply mul_fin in Fm. destruct Fm as [Fm Fk].
  apply minus_fin in Fm. destruct Fm as [Fmean Fle].
  rewrite (vl_mean_eq _ _ _ _ _ _ V) in Fmean. apply div_fin in Fmean.
  pose proof (sum_fin _ _ Fmean m L) as Fj. cbv beta in Fj. apply mul_fin in Fj. destruct Fj as [_ Fj].
  rewrite (vl_Js_eq _ _ _ _ _ _ V) in Fj. apply mul_fin in Fj. destruct Fj as [Fj _].
  pose proof Fle as Fle'. rewrite (vl_le_eq _ _ _ _ _ _ V) in Fle'. unfold energy64 in Fle'. cbv zeta in Fle'.
  eapply for_fin with (P := fun r => fin (vl_otemp _ _ _ _ _ _ V r m) /\ fin (z_feat q (vl_phis _ _ _ _ _ _ V) r m)) in Fle'.
  2:{ intros r a _ H. apply minus_fin in H. destruct H as [Ha H]. apply mul_fin in H. tauto. }
  destruct Fle' as [Fe Fo].
  apply each_fin in Fe. 2:{ intros o a H. apply add_fin in H. tauto. }
  apply add_fin in Fe. destruct Fe as [_ Fe]. apply mul_fin in Fe. destruct Fe as [Fxi Finc].
  pose proof Fxi as Fx. rewrite (vl_xi_eq _ _ _ _ _ _ V) in Fx. unfold xi64 in Fx. cbv zeta in Fx.
  apply div_fin in Fx. apply mul_fin in Fx. destruct Fx as [Fx _].
  apply each_fin in Fx.
  2:{ intros o a H. eapply for_fin with (P := fun _ => True) in H; [tauto|].
      intros r b _ H'. apply minus_fin in H'. tauto. }
  eapply for_fin with (P := fun r => fin (x_omegas k r m)) in Fx.
  2:{ intros r a _ H. apply add_fin in H. destruct H as [Ha H]. apply minus_fin in H. tauto. }
  destruct Fx as [_ Fw].
  pose proof Finc as Fi. rewrite (vl_incomp_eq _ _ _ _ _ _ V) in Fi. apply mul_fin in Fi. destruct Fi as [Fi _].
  eapply for_fin with (P := fun i => fin (vl_phis _ _ _ _ _ _ V i m)) in Fi.
  2:{ intros i a _. apply add_fin. }
  destruct Fi as [_ Fp].
  repeat split; auto; try (apply Fo; assumption).
Qed.

(** a finite volume error: the incompressibility error is finite as well *)
Lemma fin_Js_incomp : (1 <= np)%nat -> fin (r6_Js rep) -> fin (r6_incomp rep).
Proof.
  intros L F. rewrite (vl_e_incomp _ _ _ _ _ _ V). apply amax_abs_fin_conv; auto.
  intros m Lm. apply (fin_Js F m Lm).
Qed.
End Finite.

(** the errors are maxima of absolute values, so [error < tol] means finite *)
Lemma amax_abs_lt n (v : vec64) tol : lt64 (amax64 n (fun m => abs64 (v m))) tol = true ->
  fin (amax64 n (fun m => abs64 (v m))).
Proof.
  intros H.
  assert (T : forall k (r : f64), r = for_ k (fun i acc =>
      if isnan64 acc then acc else if isnan64 (abs64 (v (S i))) then abs64 (v (S i))
      else if lt64 acc (abs64 (v (S i))) then abs64 (v (S i)) else acc) (abs64 (v O)) ->
    (r = NaN \/ r = B754_infinity false) \/ fin r).
  { intros k r ->. apply (for_ind (fun _ (r : f64) => (r = NaN \/ r = B754_infinity false) \/ fin r)).
    - destruct (v O); cbn; auto; right; reflexivity.
    - intros i a _ IH. pose proof (amax_upd a (v (S i))) as [U1 U2]. destruct IH as [IH|F]; [left; auto|].
      destruct (U2 F) as [U|[U|[U _]]]; auto. }
  destruct (T _ _ (eq_refl : amax64 n (fun m => abs64 (v m)) = _)) as [[E|E]|F]; auto; rewrite E in H;
    destruct tol as [s|s| |s ? ? ?]; try destruct s; discriminate H.
Qed.

(* ------------------------------------------------------------------ *)
(** * NaN spreads *)

Lemma lt_nan_l x : lt64 NaN x = false. Proof. destruct x; reflexivity. Qed.
Lemma lt_nan_r x : lt64 x NaN = false. Proof. destruct x; reflexivity. Qed.
Lemma dead_nan thr : dead64 thr NaN = false. Proof. destruct thr; reflexivity. Qed.
Lemma mask_nan thr : mask64 thr NaN = NaN.
Proof. unfold mask64. rewrite minus_nan_l. reflexivity. Qed.

Section Nan.
Context {G St : Type} (pf : platform64 G).
Variables (q : kernel64) (k k' : state64 G St) (n : Z) (rep : report64).
Hypothesis V : values64 pf q k k' n rep.
Local Notation np := (z_np q).

Lemma nan_factor : r6_Js rep = NaN -> vl_factor _ _ _ _ _ _ V = NaN.
Proof.
  intros H. pose proof (vl_factor_eq _ _ _ _ _ _ V) as E. rewrite H, mul_nan_l in E.
  unfold pymax64 in E. rewrite lt_nan_l in E. unfold sdiv64 in E. cbn in E. injection E as E.
  rewrite <- E. apply div_nan_r.
Qed.

Lemma nan_step m0 : (m0 < np)%nat ->
  (x_Js k m0 = NaN \/ exists r, (r < z_nf q)%nat /\ x_omegas k r m0 = NaN) ->
  r6_Js rep = NaN /\ (forall m, x_Js k' m = NaN) /\ (forall r m, x_omegas k' r m = NaN).
Proof.
  intros L H.
  assert (Hxi : vl_xi _ _ _ _ _ _ V m0 = NaN).
  { rewrite (vl_xi_eq _ _ _ _ _ _ V). unfold xi64. cbv zeta. destruct H as [H|(r & Lr & H)].
    - rewrite (vl_masks_eq _ _ _ _ _ _ V), H, mask_nan, mul_nan_r. apply div_nan_l.
    - match goal with |- div64 (mul64 (each _ _ ?x) _) _ = _ => assert (E : x = NaN) end.
      { apply for_nan.
        - intros. apply add_nan_l.
        - right. exists r. split; auto. intros a. rewrite H, minus_nan_l. apply add_nan_r. }
      rewrite (each_nan _ _ _); [rewrite mul_nan_l; apply div_nan_l| |exact E].
      intros o. apply for_nan; auto. }
  assert (Hle : vl_le _ _ _ _ _ _ V m0 = NaN).
  { rewrite (vl_le_eq _ _ _ _ _ _ V). unfold energy64. cbv zeta. apply for_nan.
    - intros; apply minus_nan_l.
    - left. apply each_nan; [intros; apply add_nan_l|]. rewrite Hxi, mul_nan_l. apply add_nan_r. }
  assert (Hmean : vl_mean _ _ _ _ _ _ V = NaN).
  { rewrite (vl_mean_eq _ _ _ _ _ _ V), sum_nan; [apply div_nan_l|]. exists m0. split; auto.
    rewrite Hle. apply mul_nan_l. }
  assert (HJ : r6_Js rep = NaN).
  { rewrite (vl_e_Js _ _ _ _ _ _ V). apply amax_nan. exists m0. split; auto.
    rewrite (vl_dJ_eq _ _ _ _ _ _ V), Hmean, minus_nan_l, mul_nan_l. reflexivity. }
  pose proof (nan_factor HJ) as Hf.
  split; [exact HJ|split].
  - intros m. rewrite (vl_Js' _ _ _ _ _ _ V), (vl_Js1_eq _ _ _ _ _ _ V), Hf. autorewrite with nan. reflexivity.
  - intros r m. rewrite (vl_omegas' _ _ _ _ _ _ V), Hf. autorewrite with nan. reflexivity.
Qed.

(** when every volume and every field is NaN *)
Lemma nan_rotten : (1 <= np)%nat ->
  (forall m, (m < np)%nat -> x_Js k m = NaN /\ forall r, (r < z_nf q)%nat -> x_omegas k r m = NaN) ->
  (forall i m, (m < np)%nat -> x_comp k' i m = NaN) /\ r6_incomp rep = NaN /\ r6_omega rep = zero64.
Proof.
  intros L H. rewrite (vl_comp' _ _ _ _ _ _ V), (vl_e_incomp _ _ _ _ _ _ V), (vl_e_omega _ _ _ _ _ _ V).
  assert (M : forall m, (m < np)%nat -> vl_masks _ _ _ _ _ _ V m = NaN).
  { intros m Lm. rewrite (vl_masks_eq _ _ _ _ _ _ V). rewrite (proj1 (H m Lm)). apply mask_nan. }
  split; [|split].
  - intros i m Lm. rewrite (vl_phis_eq _ _ _ _ _ _ V), (M m Lm). apply mul_nan_r.
  - apply amax_nan. exists O. split; [lia|]. rewrite (vl_incomp_eq _ _ _ _ _ _ V), (M O ltac:(lia)), mul_nan_r. reflexivity.
  - unfold omega_error64. apply (for_ind (fun _ (r : f64) => r = zero64)); [reflexivity|].
    intros r a _ ->. rewrite amax_nan; [reflexivity|]. exists O. split; [lia|].
    rewrite (M O ltac:(lia)). apply mul_nan_r.
Qed.
End Nan.

(* ------------------------------------------------------------------ *)
(** * Revival *)

Section Revival.
Context {G : Type} (pf : platform64 G).

Lemma redraw_nan nf np t0 scaler m (t : mat64) g r m0 :
  (m0 < np)%nat -> t0 r m0 = NaN -> t r m0 = NaN ->
  fst (redraw64 pf nf np t0 scaler m (t, g)) r m0 = NaN.
Proof.
  intros L H0 H. unfold redraw64.
  apply (for_ind (fun _ (s : mat64 * G) => fst s r m0 = NaN)); [exact H|].
  intros i [t' g'] _ IH. cbn [fst] in IH. destruct (pf_uniform pf g') as [u g'']. cbn [fst].
  unfold set64. destruct (andb _ _) eqn:E; [|exact IH].
  apply andb_true_iff in E. destruct E as [E1 _]. apply Nat.eqb_eq in E1. subst i.
  unfold center64. rewrite (amax_nan np (t0 r)); [|exists m0; auto].
  reflexivity.
Qed.

Lemma revive_random_nan nf np Js t thr g scaler :
  let '(_, J', t', _) := revive_random64 pf nf np Js t thr g scaler in
  (forall m, Js m = NaN -> J' m = NaN) /\
  (forall r m, (m < np)%nat -> t r m = NaN -> t' r m = NaN).
Proof.
  unfold revive_random64.
  apply (for_ind (fun _ (s : nat * vec64 * mat64 * G) => let '(_, J', t', _) := s in
    (forall m, Js m = NaN -> J' m = NaN) /\ (forall r m, (m < np)%nat -> t r m = NaN -> t' r m = NaN))).
  - auto.
  - intros m [[[c J] t'] g'] Lm [HJ Ht]. destruct (dead64 thr (J m)) eqn:E; [|auto].
    pose proof (redraw_nan nf np t scaler m t' g') as HR.
    destruct (redraw64 pf nf np t scaler m (t', g')) as [t'' g'']. cbn [fst] in HR. split.
    + intros m1 H1. unfold upd. destruct (Nat.eqb_spec m1 m) as [->|N]; [|auto].
      rewrite (HJ m H1), dead_nan in E. discriminate.
    + intros r m1 L1 H1. apply HR; auto.
Qed.

(** every column of the result of [revive_copy64] is a column of its argument *)
Lemma find_donor_in (Js : vec64) thr : forall lc living (g : G) ref l' lc' g' np,
  (forall p j, living p = Some j -> (j < np)%nat) ->
  find_donor64 pf Js thr lc living g = Ok (ref, l', lc', g') ->
  (ref < np)%nat /\ forall p j, l' p = Some j -> (j < np)%nat.
Proof.
  induction lc as [|lc IH]; intros living g ref l' lc' g' np HL H; [discriminate|].
  cbn in H. destruct (pf_integers pf g (S lc)) as [pos g1]. destruct (living pos) as [j|] eqn:E; [|discriminate].
  destruct (lt64 _ _).
  - injection H as <- <- <- <-. split; eauto.
  - eapply IH in H; eauto. intros p j'. unfold upd. destruct (Nat.eqb p lc); [discriminate|].
    destruct (Nat.eqb p pos); eauto.
Qed.
Lemma copy_cols np thr : forall dead (s s' : copy_state64 (G := G)) (t0 : mat64),
  (forall p j, y6_living s p = Some j -> (j < np)%nat) ->
  (forall d, In d dead -> (d < np)%nat) ->
  (forall m, (m < np)%nat -> exists m', (m' < np)%nat /\ forall i, y6_t s i m = t0 i m') ->
  copy_all64 pf np thr dead s = Ok s' ->
  forall m, (m < np)%nat -> exists m', (m' < np)%nat /\ forall i, y6_t s' i m = t0 i m'.
Proof.
  induction dead as [|d dead IH]; intros s s' t0 HL HD HT H; cbn in H.
  - injection H as <-. exact HT.
  - unfold copy_one64 in H.
    destruct (find_donor64 pf (y6_Js s) thr (y6_lc s) (y6_living s) (y6_g s)) as [[[[ref l'] lc'] g']|] eqn:E; [|discriminate].
    cbn [bind] in H. destruct (negb (Nat.ltb lc' np)); [discriminate|]. cbn [bind] in H.
    eapply find_donor_in in E; [|exact HL]. destruct E as [Lr HL'].
    eapply IH; [| |  |exact H]; cbn [y6_living y6_t].
    + intros p j. unfold upd. destruct (Nat.eqb p lc'); [|apply HL'].
      intros E. injection E as <-. apply HD. left. reflexivity.
    + intros d' I. apply HD. right. exact I.
    + intros m Lm. destruct (Nat.eqb m d); [|apply HT; auto]. apply HT; auto.
Qed.
Lemma classify_in np (Js : vec64) thr : let '(living, _, dead) := classify64 np Js thr in
  (forall p j, living p = Some j -> (j < np)%nat) /\ (forall d, In d dead -> (d < np)%nat /\ dead64 thr (Js d) = true).
Proof.
  unfold classify64.
  apply (for_ind (fun n (s : (nat -> option nat) * nat * list nat) => let '(living, _, dead) := s in
    (forall p j, living p = Some j -> (j < n)%nat) /\ (forall d, In d dead -> (d < n)%nat /\ dead64 thr (Js d) = true))).
  - split; [discriminate|intros d []].
  - intros m [[l c] d] Lm [H1 H2]. destruct (lt64 _ _); [|destruct (dead64 _ _) eqn:E]; split.
    + intros p j. unfold upd. destruct (Nat.eqb p c); [intros E; injection E as <-; lia|].
      intros E. apply H1 in E. lia.
    + intros x I. apply H2 in I. destruct I. split; auto.
    + intros p j E'. apply H1 in E'. lia.
    + intros x I. apply in_app_or in I. destruct I as [I|[<-|[]]]; [|split; auto]. apply H2 in I. destruct I; split; auto.
    + intros p j E'. apply H1 in E'. lia.
    + intros x I. apply H2 in I. destruct I; split; auto.
Qed.
Lemma revive_copy_cols np Js t thr g J' t' g' : revive_copy64 pf np Js t thr g = Ok (J', t', g') ->
  forall m, (m < np)%nat -> exists m', (m' < np)%nat /\ forall i, t' i m = t i m'.
Proof.
  unfold revive_copy64. pose proof (classify_in np Js thr) as C.
  destruct (classify64 np Js thr) as [[l c] d]. destruct C as [C1 C2].
  destruct (copy_all64 _ _ _ _ _) as [s|] eqn:E; [|discriminate]. cbn. intros H. injection H as <- <- <-.
  refine (copy_cols np thr d _ s t _ _ _ E); cbn [y6_living y6_t]; eauto.
  intros x I. apply C2. exact I.
Qed.
(** nothing dead: nothing changes *)
Lemma revive_copy_none np Js t thr g J' t' g' : revive_copy64 pf np Js t thr g = Ok (J', t', g') ->
  (forall m, (m < np)%nat -> dead64 thr (Js m) = false) -> J' = Js /\ t' = t.
Proof.
  unfold revive_copy64. pose proof (classify_in np Js thr) as C.
  destruct (classify64 np Js thr) as [[l c] d]. destruct C as [C1 C2]. intros H N.
  destruct d as [|d0 d].
  - cbn in H. injection H as <- <- <-. auto.
  - destruct (C2 d0 ltac:(left; reflexivity)) as [L E]. rewrite N in E; [discriminate|exact L].
Qed.
End Revival.

(* ------------------------------------------------------------------ *)
(** * The number of masks *)

Lemma mask_values thr J : mask64 thr J = NaN \/ (exists s, mask64 thr J = B754_zero s) \/ mask64 thr J = one64.
Proof.
  unfold mask64. destruct (minus64 J thr) as [s|s| |s m e B]; cbn [sign64]; auto.
  - right; left. exists s. destruct s; reflexivity.
  - destruct s; [right; left; exists false; reflexivity|right; right; reflexivity].
  - destruct s; [right; left; exists false; reflexivity|right; right; reflexivity].
Qed.

Open Scope R_scope.
#[local] Instance fexp64_ok' : Valid_exp fexp64 := fexp_correct prec64 emax64 prec64_ok.

Lemma int_format (z : Z) : (Z.abs z <= 2 ^ 53)%Z -> generic_format radix2 fexp64 (IZR z).
Proof.
  intros H. change fexp64 with (FLT_exp (SpecFloat.emin prec64 emax64) prec64).
  destruct (Z.eq_dec (Z.abs z) (2 ^ 53)) as [E|N].
  - apply generic_format_abs_inv. rewrite <- abs_IZR, E.
    replace (IZR (2 ^ 53)) with (bpow radix2 53) by (rewrite <- IZR_Zpower by lia; reflexivity).
    apply generic_format_bpow. cbv. congruence.
  - apply generic_format_FLT. exists (Float radix2 z 0).
    + unfold F2R. cbn. ring.
    + cbn [Fnum]. change (radix2 ^ prec64)%Z with (2 ^ 53)%Z. lia.
    + cbn. cbv. congruence.
Qed.

(** [masks.sum()] of finite masks counts them exactly *)
Lemma masks_sum (v : vec64) n : (Z.of_nat n <= 2 ^ 53)%Z ->
  (forall m, (m < n)%nat -> (exists s, v m = B754_zero s) \/ v m = one64) ->
  fin (sum64 n v) /\
  B2R (sum64 n v) = INR (ncount n (fun m => negb (eq0_64 (v m)))).
Proof.
  induction n as [|n IH]; intros L H; [split; reflexivity|].
  destruct (IH ltac:(lia) ltac:(intros; apply H; lia)) as [F E].
  unfold sum64 in *. cbn [for_ ncount].
  set (a := for_ n _ zero64) in *.
  assert (Fv : fin (v n)) by (destruct (H n ltac:(lia)) as [[s ->]| ->]; reflexivity).
  assert (Ev : B2R (v n) = INR (if negb (eq0_64 (v n)) then 1 else 0)).
  { destruct (H n ltac:(lia)) as [[s ->]| ->]; [reflexivity|]. cbn [eq0_64 negb INR]. apply Bone_correct. }
  pose proof (@Bplus_correct prec64 emax64 prec64_ok prec64_lt mode_NE a (v n) F Fv) as C.
  fold (add64 a (v n)) in C. cbn [round_mode] in C.
  set (c := ncount n _) in *.
  assert (S : B2R a + B2R (v n) = IZR (Z.of_nat (c + if negb (eq0_64 (v n)) then 1 else 0))).
  { rewrite E, Ev, <- plus_INR, INR_IZR_INZ. reflexivity. }
  assert (Lc : (Z.of_nat (c + if negb (eq0_64 (v n)) then 1 else 0) <= 2 ^ 53)%Z).
  { pose proof (ncount_le n (fun m => negb (eq0_64 (v m)))). fold c in H0. destruct (negb _); lia. }
  rewrite S in C. rewrite round_generic in C; auto with typeclass_instances.
  2:{ apply int_format. lia. }
  rewrite Rlt_bool_true in C.
  - destruct C as (C1 & C2 & _). split; [exact C2|]. rewrite C1, INR_IZR_INZ. reflexivity.
  - rewrite Rabs_pos_eq by (apply IZR_le; lia).
    apply Rle_lt_trans with (IZR (2 ^ 53)); [apply IZR_le; exact Lc|].
    rewrite <- (IZR_Zpower radix2) by (cbv; congruence). apply IZR_lt. reflexivity.
Qed.
Lemma int_exact {G} (pf : platform64 G) x z : fin x -> B2R x = IZR z -> int64 pf x = z.
Proof.
  intros F E. unfold int64. rewrite F. apply eq_IZR. rewrite (Btrunc_correct _ _ prec64_lt), E.
  apply round_generic; [apply valid_rnd_ZR|]. apply generic_format_FIX. exists (Float radix2 z 0); [|reflexivity].
  unfold F2R. cbn. ring.
Qed.
