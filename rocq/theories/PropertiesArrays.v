(** PropertiesArrays.v -- C89: arrays of compositions with any number of
    dimensions. *)

From Coq Require Import Reals Lra Lia List Bool Arith ZArith.
From Verif Require Import Base ModelCommon ModelFreeEnergy ModelNorm ModelArrays ProofsFreeEnergy PropertiesFreeEnergy
  PropertiesNorm.
Import ListNotations.
Open Scope R_scope.

(** the index [idx] lies inside an array of the shape [s] *)
Definition inside (s idx : list nat) : Prop := Forall2 lt idx s.

Lemma inside_cons n s i idx : (i < n)%nat -> inside s idx -> inside (n :: s) (i :: idx).
Proof. constructor; auto. Qed.

Lemma inside_inv n s i idx : inside (n :: s) (i :: idx) -> (i < n)%nat /\ inside s idx.
Proof. intros H. inversion H; auto. Qed.

Lemma inside_rev s idx : inside s idx -> inside (rev s) (rev idx).
Proof.
  unfold inside. induction 1; cbn; [constructor|]. apply Forall2_app; [assumption|]. constructor; [assumption|constructor].
Qed.

Lemma bc_shape_same s : bc_shape s s = Ok s.
Proof. induction s as [|a s IH]; [reflexivity|]. cbn. rewrite IH. cbn. now rewrite Nat.eqb_refl. Qed.

Lemma bc_shape_nil s : bc_shape s [] = Ok s.
Proof. destruct s; reflexivity. Qed.

Lemma bc_idx_same : forall s idx, inside s idx -> bc_idx s idx = idx.
Proof.
  intros s idx H. induction H as [|i n idx s Hi H IH]; [reflexivity|]. cbn. rewrite IH.
  destruct (Nat.eqb_spec n 1); [f_equal; lia|reflexivity].
Qed.

Lemma bc_idx_nil idx : bc_idx [] idx = [].
Proof. reflexivity. Qed.

Lemma xsum_ext n f g : (forall i, (i < n)%nat -> f i = g i) -> xsum n f = xsum n g.
Proof. induction n as [|n IH]; intros H; [reflexivity|]. cbn. rewrite IH by (intros; apply H; lia). now rewrite H by lia. Qed.

(** [map2] of operands with the same shape *)
Lemma map2_same {A B C} (f : A -> B -> C) x y s : a_sh x = s -> a_sh y = s ->
  exists r, map2 f x y = Ok r /\ a_sh r = s /\ forall idx, inside s idx -> a_at r idx = f (a_at x idx) (a_at y idx).
Proof.
  intros Hx Hy. unfold map2. rewrite Hx, Hy, bc_shape_same. cbn [bind]. eexists. split; [reflexivity|]. cbn. split; [reflexivity|].
  intros idx H. now rewrite bc_idx_same.
Qed.

(** [map2] with an operand that has only the last axis *)
Lemma map2_last {A B C} (f : A -> B -> C) x y n s : a_sh x = n :: s -> a_sh y = [n] ->
  exists r, map2 f x y = Ok r /\ a_sh r = n :: s /\
    forall i idx, inside (n :: s) (i :: idx) -> a_at r (i :: idx) = f (a_at x (i :: idx)) (a_at y [i]).
Proof.
  intros Hx Hy. unfold map2. rewrite Hx, Hy. cbn [bc_shape]. rewrite bc_shape_nil. cbn [bind]. rewrite Nat.eqb_refl. cbn [bind].
  eexists. split; [reflexivity|]. cbn [a_sh a_at]. split; [reflexivity|].
  intros i idx H. rewrite bc_idx_same by auto. inversion H; subst. cbn. destruct (Nat.eqb_spec n 1); [|reflexivity].
  now replace i with O by lia.
Qed.

(** [map2] with a second operand whose last axis has length one *)
Lemma map2_one {A B C} (f : A -> B -> C) x y n s : a_sh x = n :: s -> a_sh y = 1%nat :: s ->
  exists r, map2 f x y = Ok r /\ a_sh r = n :: s /\
    forall i idx, inside (n :: s) (i :: idx) -> a_at r (i :: idx) = f (a_at x (i :: idx)) (a_at y (O :: idx)).
Proof.
  intros Hx Hy. unfold map2. rewrite Hx, Hy. cbn [bc_shape]. rewrite bc_shape_same. cbn [bind].
  assert (E : (if Nat.eqb n 1 then Ok (n :: s) else if Nat.eqb n 1 then Ok (1%nat :: s) else
               if Nat.eqb 1 1 then Ok (n :: s) else Err ValueError) = Ok (n :: s)).
  { destruct (Nat.eqb n 1); reflexivity. }
  rewrite E. cbn [bind]. eexists. split; [reflexivity|]. cbn [a_sh a_at]. split; [reflexivity|].
  intros i idx H. rewrite bc_idx_same by auto. inversion H; subst. cbn. now rewrite bc_idx_same.
Qed.

Section Impl.
Variables (F : fe) (c : arr R) (s : list nat).
Hypothesis HS : a_sh c = fe_nc F :: s.
(** the composition at one position *)
Let phi (idx : list nat) : vec := fun i => a_at c (i :: idx).

Ltac chain E S A := let r := fresh "r" in destruct E as (r & E & S & A); rewrite E; cbn [bind].

Lemma ent_energy_nd_at : exists r, ent_energy_nd F c = Ok r /\ a_sh r = s /\
  forall idx, inside s idx -> a_at r idx = ent_energy (fe_nc F) (fe_sizes F) (phi idx).
Proof.
  unfold ent_energy_nd. destruct (map2_last xdiv (map1 xlogx c) (sizes_arr F) (fe_nc F) s) as (t & E & S & A); auto.
  rewrite E. cbn [bind]. eexists. split; [reflexivity|]. cbn. unfold width. rewrite S. cbn. split; [reflexivity|].
  intros idx H. apply xsum_ext. intros i Hi. rewrite A by (now apply inside_cons). reflexivity.
Qed.

Lemma energy_impl_at : exists r, energy_impl_nd F c = Ok r /\ a_sh r = s /\
  forall idx, inside s idx -> a_at r idx = energy_at F (phi idx).
Proof.
  unfold energy_impl_nd. destruct ent_energy_nd_at as (t & E & S & A). rewrite E. cbn [bind].
  destruct (map2_same xadd (int_energy_nd F c) t s) as (r & E2 & S2 & A2); auto; [cbn; now rewrite HS|].
  exists r. split; [auto|]. split; [auto|]. intros idx H. rewrite A2, A by auto. unfold energy_at. f_equal. cbn. unfold width.
  rewrite HS. reflexivity.
Qed.

Lemma int_jacobian_at idx i : a_at (int_jacobian_nd F c) (i :: idx) = int_jacobian (fe_nc F) (fe_chis F) (phi idx) i.
Proof. cbn. unfold width. rewrite HS. reflexivity. Qed.

Lemma jacobian_impl_at : exists r, jacobian_impl_nd F c = Ok r /\ a_sh r = fe_nc F :: s /\
  forall i idx, inside (fe_nc F :: s) (i :: idx) -> a_at r (i :: idx) = jacobian_at F (phi idx) i.
Proof.
  unfold jacobian_impl_nd, ent_jacobian_nd.
  destruct (map2_last xdiv (map1 xlog c) (sizes_arr F) (fe_nc F) s) as (t & E & S & A); auto. rewrite E. cbn [bind].
  destruct (map2_last xadd t (map1 (fun l => xdiv (Fin 1) l) (sizes_arr F)) (fe_nc F) s) as (u & E1 & S1 & A1); auto.
  rewrite E1. cbn [bind].
  destruct (map2_same xadd (int_jacobian_nd F c) u (fe_nc F :: s)) as (r & E2 & S2 & A2); auto; [cbn; now rewrite HS|].
  exists r. split; [auto|]. split; [auto|]. intros i idx H. rewrite A2, A1, A by auto. unfold jacobian_at.
  rewrite int_jacobian_at. reflexivity.
Qed.

Lemma jacobian_fractions_impl_at : exists r, jacobian_fractions_impl_nd F c = Ok r /\ a_sh r = fe_nc F :: s /\
  forall i idx, inside (fe_nc F :: s) (i :: idx) -> a_at r (i :: idx) = jacobian_fractions_at F (phi idx) i.
Proof.
  unfold jacobian_fractions_impl_nd, ent_jacobian_fractions_nd.
  destruct (map2_same xscale (int_jacobian_nd F c) c (fe_nc F :: s)) as (v & E0 & S0 & A0); auto; [cbn; now rewrite HS|].
  rewrite E0. cbn [bind].
  destruct (map2_last xdiv (map1 xlogx c) (sizes_arr F) (fe_nc F) s) as (t & E & S & A); auto. rewrite E. cbn [bind].
  destruct (map2_last (fun p l => xdiv (Fin p) l) c (sizes_arr F) (fe_nc F) s) as (w & E3 & S3 & A3); auto. rewrite E3. cbn [bind].
  destruct (map2_same xadd t w (fe_nc F :: s)) as (u & E1 & S1 & A1); auto. rewrite E1. cbn [bind].
  destruct (map2_same xadd v u (fe_nc F :: s)) as (r & E2 & S2 & A2); auto.
  exists r. split; [auto|]. split; [auto|]. intros i idx H. rewrite A2, A0, A1, A, A3 by auto. unfold jacobian_fractions_at.
  rewrite int_jacobian_at. reflexivity.
Qed.

Lemma set_diag_shape diag l m : a_sh (fold_left (set_diag diag) l m) = a_sh m.
Proof. revert m. induction l as [|k l IH]; intros m; [reflexivity|]. cbn [fold_left]. now rewrite IH. Qed.

Lemma set_diag_at diag l : forall m j i idx,
  a_at (fold_left (set_diag diag) l m) (j :: i :: idx) =
    if (Nat.eqb i j && existsb (Nat.eqb i) l)%bool then a_at diag (i :: idx) else a_at m (j :: i :: idx).
Proof.
  induction l as [|k l IH]; intros m j i idx; cbn [fold_left existsb]; [now rewrite andb_false_r|].
  rewrite IH. cbn [set_diag a_at hd tl]. destruct (Nat.eqb_spec i j) as [->|]; cbn [andb].
  - destruct (Nat.eqb_spec j k) as [->|]; cbn [andb orb]; [|reflexivity]. destruct (existsb _ l); reflexivity.
  - destruct (Nat.eqb_spec j k), (Nat.eqb_spec i k); cbn [andb]; try reflexivity. congruence.
Qed.

Lemma existsb_seq i n : (i < n)%nat -> existsb (Nat.eqb i) (seq 0 n) = true.
Proof. intros H. apply existsb_exists. exists i. split; [apply in_seq; lia|apply Nat.eqb_refl]. Qed.

Lemma int_hessian_nd_at : exists r, int_hessian_nd F c = Ok r /\ a_sh r = fe_nc F :: fe_nc F :: s /\
  forall i j idx, inside (fe_nc F :: fe_nc F :: s) (j :: i :: idx) -> a_at r (j :: i :: idx) = int_hessian (fe_chis F) (phi idx) i j.
Proof.
  unfold int_hessian_nd, map2, newaxis, map1, chis_arr. cbn [a_sh a_at]. rewrite HS. cbn [bc_shape]. rewrite bc_shape_nil. cbn [bind].
  rewrite Nat.eqb_refl. cbn [bind].
  assert (E : (if Nat.eqb 1 (fe_nc F) then Ok (1%nat :: fe_nc F :: s) else if Nat.eqb 1 1 then Ok (fe_nc F :: fe_nc F :: s)
     else if Nat.eqb (fe_nc F) 1 then Ok (1%nat :: fe_nc F :: s) else Err ValueError) = Ok (fe_nc F :: fe_nc F :: s)).
  { destruct (Nat.eqb_spec 1 (fe_nc F)) as [<-|]; reflexivity. }
  rewrite E. cbn [bind]. eexists. split; [reflexivity|]. cbn [a_sh a_at]. split; [reflexivity|].
  intros i j idx H. unfold int_hessian. f_equal. f_equal. inversion H as [|? ? ? ? Hj H1]; subst. inversion H1; subst. cbn.
  destruct (Nat.eqb_spec (fe_nc F) 1); [|reflexivity]. now replace i with O by lia; replace j with O by lia.
Qed.

Lemma hessian_impl_at : exists r, hessian_impl_nd F c = Ok r /\ a_sh r = fe_nc F :: fe_nc F :: s /\
  forall i j idx, inside (fe_nc F :: fe_nc F :: s) (j :: i :: idx) -> a_at r (j :: i :: idx) = hessian_at F (phi idx) i j.
Proof.
  unfold hessian_impl_nd, ent_hessian_nd. destruct int_hessian_nd_at as (u & E & S & A). rewrite E. cbn [bind].
  destruct (map2_last xscale (map1 (fun p => xdiv (Fin 1) p) c) (sizes_arr F) (fe_nc F) s) as (d & E1 & S1 & A1); auto.
  rewrite E1. cbn [bind].
  set (e := fold_left (set_diag d) (seq 0 (fe_nc F)) (Build_arr (fe_nc F :: a_sh d) (fun _ => Fin 0))).
  destruct (map2_same xadd u e (fe_nc F :: fe_nc F :: s)) as (r & E2 & S2 & A2); auto.
  { unfold e. rewrite set_diag_shape. cbn. now rewrite S1. }
  exists r. split; [auto|]. split; [auto|]. intros i j idx H. rewrite A2, A by auto. unfold hessian_at. f_equal.
  unfold e. rewrite set_diag_at. inversion H as [|? ? ? ? Hj H1]; subst. inversion H1; subst.
  rewrite existsb_seq, andb_true_r by auto. unfold ent_hessian. destruct (Nat.eqb i j); [|reflexivity].
  rewrite A1 by auto. reflexivity.
Qed.

(** the check *)
Lemma any_at_false : forall t (f : list nat -> bool), any_at t f = false <-> forall idx, inside t idx -> f idx = false.
Proof.
  induction t as [|n t IH]; intros f; cbn [any_at].
  - split; [intros H idx HI; inversion HI; subst; auto|intros H; apply H; constructor].
  - rewrite IH. split.
    + intros H idx HI. inversion HI as [|i ? idx' ? Hi HI']; subst. specialize (H idx' HI').
      destruct (f (i :: idx')) eqn:E; [|reflexivity]. exfalso. rewrite <- not_true_iff_false in H. apply H.
      apply existsb_exists. exists i. split; [apply in_seq; lia|auto].
    + intros H idx HI. apply not_true_iff_false. intros E. apply existsb_exists in E. destruct E as (i & Hi & E).
      apply in_seq in Hi. rewrite H in E; [discriminate|]. constructor; [lia|auto].
Qed.

Hypothesis HN : forall idx, inside (a_sh c) idx -> 0 <= a_at c idx.

Lemma check_nd_ok : check_nd F c = Ok tt.
Proof.
  unfold check_nd. rewrite HS at 1. rewrite Nat.eqb_refl. cbn [negb].
  assert (E : any_at (a_sh c) (fun idx => Rltb (a_at c idx) 0) = false).
  { apply any_at_false. intros idx H. unfold Rltb. destruct (Rlt_dec _ _) as [L|]; [|reflexivity]. specialize (HN idx H). lra. }
  now rewrite E.
Qed.

Lemma free_energy_density_nd_at : exists r, free_energy_density_nd F c = Ok r /\ a_sh r = s /\
  forall idx, inside s idx -> a_at r idx = energy_at F (phi idx).
Proof. unfold free_energy_density_nd. rewrite check_nd_ok. cbn [bind]. apply energy_impl_at. Qed.

Lemma jacobian_nd_at : exists r, jacobian_nd F c None = Ok r /\ a_sh r = fe_nc F :: s /\
  forall i idx, inside (fe_nc F :: s) (i :: idx) -> a_at r (i :: idx) = jacobian_at F (phi idx) i.
Proof.
  unfold jacobian_nd. rewrite check_nd_ok. cbn [bind]. destruct jacobian_impl_at as (r & E & S & A). rewrite E. cbn [bind]. eauto.
Qed.

Lemma jacobian_nd_some z k : axis_index (fe_nc F) z = Ok k ->
  exists r, jacobian_nd F c (Some z) = Ok r /\ a_sh r = (fe_nc F - 1)%nat :: s /\
  forall i idx, inside ((fe_nc F - 1)%nat :: s) (i :: idx) ->
    a_at r (i :: idx) = xsub (jacobian_at F (phi idx) (skip k i)) (jacobian_at F (phi idx) k).
Proof.
  intros HZ. unfold jacobian_nd. rewrite check_nd_ok. cbn [bind]. destruct jacobian_impl_at as (r & E & S & A). rewrite E. cbn [bind].
  unfold delete_last, take_last, width. rewrite S. cbn [hd tl]. rewrite HZ. cbn [bind].
  destruct (map2_one xsub (Build_arr ((fe_nc F - 1)%nat :: s) (fun idx => a_at r (after k (hd O idx) :: tl idx)))
    (newaxis (Build_arr s (fun idx => a_at r (k :: idx)))) (fe_nc F - 1) s) as (q & E2 & S2 & A2); try reflexivity.
  exists q. split; [auto|]. split; [auto|]. intros i idx H. rewrite A2 by auto. cbn [a_at newaxis hd tl].
  inversion H; subst. assert (Hk : (k < fe_nc F)%nat).
  { unfold axis_index in HZ. destruct (_ || _)%bool eqn:B; [discriminate|]. injection HZ as HZ.
    apply orb_false_iff in B. destruct B as [B1 B2]. apply Z.ltb_ge in B1. apply Z.leb_gt in B2. destruct (Z.ltb_spec z 0); lia. }
  rewrite !A; [reflexivity| |]; apply inside_cons; auto. unfold after. now apply skip_lt.
Qed.

Lemma axis_index_lt n z k : axis_index n z = Ok k -> (k < n)%nat.
Proof.
  unfold axis_index. destruct (_ || _)%bool eqn:B; [discriminate|]. intros HZ. injection HZ as HZ.
  apply orb_false_iff in B. destruct B as [B1 B2]. apply Z.ltb_ge in B1. apply Z.leb_gt in B2. destruct (Z.ltb_spec z 0); lia.
Qed.

(** [map2] with a second operand whose last two axes have the same length or one *)
Lemma map2_axes {A B C} (f : A -> B -> C) x y n b1 b2 : a_sh x = n :: n :: s -> a_sh y = b1 :: b2 :: s ->
  b1 = n \/ b1 = 1%nat -> b2 = n \/ b2 = 1%nat ->
  exists r, map2 f x y = Ok r /\ a_sh r = n :: n :: s /\
    forall i j idx, inside (n :: n :: s) (j :: i :: idx) -> a_at r (j :: i :: idx) =
      f (a_at x (j :: i :: idx)) (a_at y ((if Nat.eqb b1 1 then O else j) :: (if Nat.eqb b2 1 then O else i) :: idx)).
Proof.
  intros Hx Hy H1 H2. unfold map2. rewrite Hx, Hy. cbn [bc_shape]. rewrite bc_shape_same. cbn [bind].
  assert (E : forall (b : nat) l, b = n \/ b = 1%nat -> (if Nat.eqb n b then Ok (n :: l) else if Nat.eqb n 1 then Ok (b :: l) else
               if Nat.eqb b 1 then Ok (n :: l) else Err ValueError) = Ok (n :: l)).
  { intros b l [->| ->]; [now rewrite Nat.eqb_refl|]. destruct (Nat.eqb_spec n 1); reflexivity. }
  rewrite E by auto. cbn [bind]. rewrite E by auto. cbn [bind].
  eexists. split; [reflexivity|]. cbn [a_sh a_at]. split; [reflexivity|].
  intros i j idx H. rewrite bc_idx_same by auto. inversion H as [|? ? ? ? ? H']; subst. inversion H'; subst. cbn.
  now rewrite bc_idx_same.
Qed.

Lemma hessian_nd_at : exists r, hessian_nd F c None = Ok r /\ a_sh r = fe_nc F :: fe_nc F :: s /\
  forall i j idx, inside (fe_nc F :: fe_nc F :: s) (j :: i :: idx) -> a_at r (j :: i :: idx) = hessian_at F (phi idx) i j.
Proof.
  unfold hessian_nd. rewrite check_nd_ok. cbn [bind]. destruct hessian_impl_at as (r & E & S & A). rewrite E. cbn [bind]. eauto.
Qed.

Lemma hessian_nd_some z k : axis_index (fe_nc F) z = Ok k ->
  exists r, hessian_nd F c (Some z) = Ok r /\ a_sh r = (fe_nc F - 1)%nat :: (fe_nc F - 1)%nat :: s /\
  forall i j idx, inside ((fe_nc F - 1)%nat :: (fe_nc F - 1)%nat :: s) (j :: i :: idx) ->
    let h := hessian_at F (phi idx) in
    a_at r (j :: i :: idx) =
      xadd (xsub (xsub (h (skip k i) (skip k j)) (h k (skip k j))) (h (skip k i) k)) (h k k).
Proof.
  intros HZ. pose proof (axis_index_lt _ _ _ HZ) as Hk.
  unfold hessian_nd. rewrite check_nd_ok. cbn [bind]. destruct hessian_impl_at as (h & E & S & A). rewrite E. cbn [bind].
  unfold row_axis, column_axis, corner_axis, width. rewrite S. cbn [hd tl]. rewrite HZ. cbn [bind].
  set (x1 := Build_arr (fe_nc F :: 1%nat :: s) (fun idx => a_at h (hd O idx :: k :: tl (tl idx)))).
  destruct (map2_axes xsub h x1 (fe_nc F) (fe_nc F) 1) as (h1 & E1 & S1 & A1); auto. rewrite E1. cbn [bind].
  set (x2 := Build_arr (1%nat :: fe_nc F :: s) (fun idx => a_at h (k :: tl idx))).
  destruct (map2_axes xsub h1 x2 (fe_nc F) 1 (fe_nc F)) as (h2 & E2 & S2 & A2); auto. rewrite E2. cbn [bind].
  set (x3 := Build_arr (1%nat :: 1%nat :: s) (fun idx => a_at h (k :: k :: tl (tl idx)))).
  destruct (map2_axes xadd h2 x3 (fe_nc F) 1 1) as (h3 & E3 & S3 & A3); auto. rewrite E3. cbn [bind].
  unfold delete_last, delete_second, width. rewrite S3. cbn [hd tl]. rewrite HZ. cbn [bind a_sh hd tl]. rewrite HZ. cbn [bind].
  eexists. split; [reflexivity|]. cbn [a_sh a_at hd tl]. split; [reflexivity|]. intros i j idx H.
  inversion H as [|? ? ? ? Hj H']; subst. inversion H' as [|? ? ? ? Hi H'']; subst.
  assert (Hi' : (skip k i < fe_nc F)%nat) by now apply skip_lt. assert (Hj' : (skip k j < fe_nc F)%nat) by now apply skip_lt.
  change (after k i) with (skip k i). change (after k j) with (skip k j).
  assert (I : forall a b, (a < fe_nc F)%nat -> (b < fe_nc F)%nat -> inside (fe_nc F :: fe_nc F :: s) (b :: a :: idx))
    by (intros; repeat apply inside_cons; auto).
  rewrite A3, A2, A1 by auto. unfold x1, x2, x3. cbn [a_at hd tl Nat.eqb].
  assert (P : forall a, (a < fe_nc F)%nat -> (if Nat.eqb (fe_nc F) 1 then O else a) = a)
    by (intros a Ha; destruct (Nat.eqb_spec (fe_nc F) 1); lia).
  rewrite !P by auto. rewrite !A by auto. reflexivity.
Qed.

(** shape of the chemical potentials *)
Lemma chemical_potentials_nd_at : exists r, chemical_potentials_nd F c = Ok r /\
  a_sh r = fe_nc F :: (match s with [] => [1%nat] | _ => s end) /\
  forall i idx, inside (fe_nc F :: s) (i :: idx) ->
    a_at r (i :: match s with [] => [O] | _ => idx end) = potential_at F (phi idx) i.
Proof.
  unfold chemical_potentials_nd. rewrite check_nd_ok. cbn [bind].
  destruct free_energy_density_nd_at as (f & E & S & A). rewrite E. cbn [bind].
  destruct jacobian_nd_at as (j & E1 & S1 & A1). rewrite E1. cbn [bind].
  destruct jacobian_fractions_impl_at as (q & E2 & S2 & A2). rewrite E2. cbn [bind].
  assert (Q : forall idx, inside s idx -> a_at (newaxis (sum_last q)) (O :: idx) = xsum (fe_nc F) (jacobian_fractions_at F (phi idx))).
  { intros idx H. cbn. unfold width. rewrite S2. cbn [hd]. apply xsum_ext. intros i Hi. apply A2. now apply inside_cons. }
  destruct (list_eq_dec Nat.eq_dec s []) as [Es|Es].
  - rewrite Es in *. unfold atleast1. rewrite S.
    destruct (map2 xsub (newaxis (Build_arr [1%nat] (fun _ => a_at f []))) (newaxis (sum_last q))) as [t|] eqn:E3;
      unfold map2 in E3; cbn [a_sh newaxis sum_last] in E3; rewrite S2 in E3; cbn in E3; [|discriminate].
    injection E3 as <-. cbn [bind]. unfold map2. cbn [a_sh a_at]. rewrite S1.
    assert (B : bc_shape [1%nat; 1%nat] [fe_nc F] = Ok [fe_nc F; 1%nat]).
    { cbn. destruct (fe_nc F) as [|[|n]]; reflexivity. }
    rewrite B. cbn [bind]. eexists. split; [reflexivity|]. cbn [a_sh a_at]. split; [reflexivity|].
    intros i idx H. inversion H as [|? ? ? ? Hi HI]; subst. inversion HI; subst.
    assert (I0 : inside [] []) by constructor.
    replace (bc_idx [fe_nc F] [i; O]) with [i] by (cbn; destruct (Nat.eqb_spec (fe_nc F) 1); [f_equal; lia|reflexivity]).
    rewrite A1 by auto. unfold potential_at. rewrite <- (Q [] I0), <- (A [] I0). reflexivity.
  - assert (Em : forall (X : Type) (a b : X), match s with [] => a | _ => b end = b) by (intros; destruct s; congruence).
    rewrite !Em. unfold atleast1. rewrite S. rewrite Em.
    destruct (map2_same xsub (newaxis f) (newaxis (sum_last q)) (1%nat :: s)) as (t & E3 & S3 & A3).
    { cbn. now rewrite S. } { cbn. now rewrite S2. }
    rewrite E3. cbn [bind]. unfold map2. rewrite S3, S1. cbn [bc_shape]. rewrite bc_shape_same. cbn [bind].
    assert (B : (if Nat.eqb 1 (fe_nc F) then Ok (1%nat :: s) else if Nat.eqb 1 1 then Ok (fe_nc F :: s)
        else if Nat.eqb (fe_nc F) 1 then Ok (1%nat :: s) else Err ValueError) = Ok (fe_nc F :: s)).
    { destruct (Nat.eqb_spec 1 (fe_nc F)) as [<-|]; reflexivity. }
    rewrite B. cbn [bind]. eexists. split; [reflexivity|]. cbn [a_sh a_at]. split; [reflexivity|].
    intros i idx H. rewrite Em. destruct (inside_inv _ _ _ _ H) as [Hi HI].
    rewrite (bc_idx_same (fe_nc F :: s)) by auto. cbn [bc_idx Nat.eqb]. rewrite bc_idx_same by auto.
    rewrite A3 by (apply inside_cons; [lia|auto]). rewrite Q by auto. rewrite A1 by auto. unfold potential_at.
    cbn [newaxis a_at tl]. now rewrite A by auto.
Qed.
End Impl.

(* ------------------------------------------------------------------ *)
(** * Every entry is the result for that composition alone *)

(** [c[b]], the composition at position [b] of the leading axes *)
Definition comp_at (n : nat) (c : arr R) (b : list nat) : list R := map (fun i => entry_of c (b ++ [i])) (seq 0 n).
(** acceptable fractions *)
Definition nonneg_nd (c : arr R) : Prop := forall idx, inside (shape_of c) idx -> 0 <= entry_of c idx.

Lemma energy_at_ext F p q : (forall i, (i < fe_nc F)%nat -> p i = q i) -> energy_at F p = energy_at F q.
Proof.
  intros H. unfold energy_at, int_energy, ent_energy. f_equal.
  - f_equal. f_equal. apply rsum_ext. intros i Hi. apply rsum_ext. intros j Hj. now rewrite !H.
  - apply xsum_ext. intros i Hi. now rewrite H.
Qed.

Lemma int_jacobian_ext nc chi p q i : (forall i, (i < nc)%nat -> p i = q i) -> int_jacobian nc chi p i = int_jacobian nc chi q i.
Proof. intros H. unfold int_jacobian. f_equal. apply rsum_ext. intros j Hj. now rewrite H. Qed.

Lemma jacobian_at_ext F p q i : (forall i, (i < fe_nc F)%nat -> p i = q i) -> (i < fe_nc F)%nat -> jacobian_at F p i = jacobian_at F q i.
Proof.
  intros H Hi. unfold jacobian_at, ent_jacobian. rewrite (int_jacobian_ext _ _ p q) by auto. now rewrite H.
Qed.

Lemma hessian_at_ext F p q i j : (forall i, (i < fe_nc F)%nat -> p i = q i) -> (i < fe_nc F)%nat -> hessian_at F p i j = hessian_at F q i j.
Proof. intros H Hi. unfold hessian_at, int_hessian, ent_hessian. now rewrite H. Qed.

Lemma potential_at_ext F p q i : (forall i, (i < fe_nc F)%nat -> p i = q i) -> (i < fe_nc F)%nat -> potential_at F p i = potential_at F q i.
Proof.
  intros H Hi. unfold potential_at. rewrite (energy_at_ext F p q), (jacobian_at_ext F p q) by auto.
  f_equal. f_equal. apply xsum_ext. intros k Hk. unfold jacobian_fractions_at, ent_jacobian_fractions. rewrite (int_jacobian_ext _ _ p q) by auto.
  now rewrite H.
Qed.

Section Entrywise.
Variables (F : fe) (c : arr R) (lead : list nat).
Hypothesis HS : shape_of c = lead ++ [fe_nc F].
Hypothesis HN : nonneg_nd c.

Lemma rev_shape : a_sh c = fe_nc F :: rev lead.
Proof. unfold shape_of in HS. rewrite <- (rev_involutive (a_sh c)), HS, rev_app_distr. reflexivity. Qed.

Lemma rev_nonneg : forall idx, inside (a_sh c) idx -> 0 <= a_at c idx.
Proof.
  intros idx H. rewrite <- (rev_involutive idx). apply HN. unfold shape_of. now apply inside_rev.
Qed.

Lemma comp_entries b i : (i < fe_nc F)%nat -> entries (comp_at (fe_nc F) c b) i = a_at c (i :: rev b).
Proof.
  intros Hi. unfold entries, comp_at. fold (listed (fe_nc F) (fun i => entry_of c (b ++ [i]))). rewrite listed_nth by auto.
  unfold entry_of. now rewrite rev_app_distr.
Qed.

Lemma comp_check b : inside lead b -> check_fractions F (One (comp_at (fe_nc F) c b)) = Ok tt.
Proof.
  intros Hb. apply check_ok; cbn; [unfold comp_at; now rewrite map_length, seq_length|].
  constructor; [|constructor]. apply Forall_forall. intros x Hx. unfold comp_at in Hx. apply in_map_iff in Hx.
  destruct Hx as (i & <- & Hi). apply in_seq in Hi. apply HN. rewrite HS. unfold inside.
  apply Forall2_app; [exact Hb|]. constructor; [lia|constructor].
Qed.

Lemma shape_lead r s : a_sh r = rev s -> @shape_of xr r = s.
Proof. intros E. unfold shape_of. rewrite E. apply rev_involutive. Qed.

Theorem C89_energy : exists r, free_energy_density_nd F c = Ok r /\ shape_of r = lead /\
  forall b, inside lead b -> free_energy_density F (One (comp_at (fe_nc F) c b)) = Ok (Single (entry_of r b)).
Proof.
  destruct (free_energy_density_nd_at F c (rev lead) rev_shape rev_nonneg) as (r & E & S & A).
  exists r. split; [exact E|]. split; [now apply shape_lead|]. intros b Hb. unfold free_energy_density.
  rewrite comp_check by auto. cbn [bind each]. do 2 f_equal. unfold entry_of. rewrite A by now apply inside_rev.
  apply energy_at_ext. intros i Hi. now apply comp_entries.
Qed.

(** length of the axes of the derivatives *)
Definition derivative_width (index : option Z) : nat := match index with None => fe_nc F | Some _ => (fe_nc F - 1)%nat end.
Definition index_ok (index : option Z) : Prop :=
  match index with None => True | Some z => (- Z.of_nat (fe_nc F) <= z < Z.of_nat (fe_nc F))%Z end.

Lemma index_found z : index_ok (Some z) -> exists k, axis_index (fe_nc F) z = Ok k /\ (k < fe_nc F)%nat.
Proof.
  cbn. intros [H1 H2]. unfold axis_index. destruct (Z.ltb_spec z (- Z.of_nat (fe_nc F))); [lia|].
  destruct (Z.leb_spec (Z.of_nat (fe_nc F)) z); [lia|]. cbn [orb]. eexists. split; [reflexivity|]. destruct (Z.ltb_spec z 0); lia.
Qed.

Theorem C89_jacobian index : index_ok index ->
  exists r, jacobian_nd F c index = Ok r /\ shape_of r = lead ++ [derivative_width index] /\
    forall b, inside lead b -> jacobian F (One (comp_at (fe_nc F) c b)) index =
      Ok (Single (map (fun i => entry_of r (b ++ [i])) (seq 0 (derivative_width index)))).
Proof.
  intros HI. destruct index as [z|].
  - destruct (index_found z HI) as (k & Hz & Hk).
    destruct (jacobian_nd_some F c (rev lead) rev_shape rev_nonneg z k Hz) as (r & E & S & A).
    exists r. split; [exact E|]. split; [unfold shape_of; rewrite S; cbn; now rewrite rev_involutive|].
    intros b Hb. unfold jacobian. rewrite comp_check by auto. cbn [bind]. rewrite Hz. cbn [bind each]. do 2 f_equal.
    rewrite delete_listed by auto. rewrite listed_map. apply map_ext_in. intros i Hi. apply in_seq in Hi. cbn in Hi.
    unfold entry_of. rewrite rev_app_distr. cbn [rev app].
    rewrite A by (apply inside_cons; [lia|now apply inside_rev]). rewrite listed_nth by auto.
    assert (X : forall i, (i < fe_nc F)%nat -> entries (comp_at (fe_nc F) c b) i = a_at c (i :: rev b))
      by (intros; now apply comp_entries).
    f_equal; apply jacobian_at_ext; auto. apply skip_lt. lia.
  - destruct (jacobian_nd_at F c (rev lead) rev_shape rev_nonneg) as (r & E & S & A).
    exists r. split; [exact E|]. split; [unfold shape_of; rewrite S; cbn; now rewrite rev_involutive|].
    intros b Hb. unfold jacobian. rewrite comp_check by auto. cbn [bind each]. do 2 f_equal.
    apply map_ext_in. intros i Hi. apply in_seq in Hi. cbn in Hi. unfold entry_of. rewrite rev_app_distr. cbn [rev app].
    rewrite A by (apply inside_cons; [lia|now apply inside_rev]).
    apply jacobian_at_ext; [intros; now apply comp_entries|lia].
Qed.

Theorem C89_hessian index : index_ok index ->
  exists r, hessian_nd F c index = Ok r /\ shape_of r = lead ++ [derivative_width index; derivative_width index] /\
    forall b, inside lead b -> hessian F (One (comp_at (fe_nc F) c b)) index =
      Ok (Single (map (fun i => map (fun j => entry_of r (b ++ [i; j])) (seq 0 (derivative_width index)))
                      (seq 0 (derivative_width index)))).
Proof.
  intros HI.
  assert (X : forall b i, (i < fe_nc F)%nat -> entries (comp_at (fe_nc F) c b) i = a_at c (i :: rev b))
      by (intros; now apply comp_entries).
  destruct index as [z|].
  - destruct (index_found z HI) as (k & Hz & Hk).
    destruct (hessian_nd_some F c (rev lead) rev_shape rev_nonneg z k Hz) as (r & E & S & A).
    exists r. split; [exact E|]. split; [unfold shape_of; rewrite S; cbn; rewrite rev_involutive, <- app_assoc; reflexivity|].
    intros b Hb. unfold hessian. rewrite comp_check by auto. cbn [bind]. rewrite Hz. cbn [bind each]. do 2 f_equal.
    unfold hessian_rows. rewrite listed_map. rewrite delete_listed by auto. apply map_ext_in. intros i Hi. apply in_seq in Hi. cbn in Hi.
    rewrite delete_listed by auto. apply map_ext_in. intros j Hj. apply in_seq in Hj. cbn in Hj.
    unfold entry_of. rewrite rev_app_distr. cbn [rev app].
    rewrite A by (repeat apply inside_cons; [lia|lia|now apply inside_rev]). cbv zeta.
    assert (skip k i < fe_nc F)%nat by (apply skip_lt; lia). assert (skip k j < fe_nc F)%nat by (apply skip_lt; lia).
    f_equal; [f_equal; [f_equal|]|]; apply hessian_at_ext; auto.
  - destruct (hessian_nd_at F c (rev lead) rev_shape rev_nonneg) as (r & E & S & A).
    exists r. split; [exact E|]. split; [unfold shape_of; rewrite S; cbn; rewrite rev_involutive, <- app_assoc; reflexivity|].
    intros b Hb. unfold hessian. rewrite comp_check by auto. cbn [bind each]. do 2 f_equal.
    unfold hessian_rows. apply map_ext_in. intros i Hi. apply in_seq in Hi. apply map_ext_in. intros j Hj. apply in_seq in Hj.
    cbn in Hi, Hj. unfold entry_of. rewrite rev_app_distr. cbn [rev app].
    rewrite A by (repeat apply inside_cons; [lia|lia|now apply inside_rev]). apply hessian_at_ext; auto. lia.
Qed.

(** A single composition gives an array with one row. *)
Definition rows_axes : list nat := match lead with [] => [1%nat] | _ => lead end.
Definition row_pos (b : list nat) : list nat := match lead with [] => [O] | _ => b end.

Lemma rev_rows {A} (a b : A) : match rev lead with [] => a | _ => b end = match lead with [] => a | _ => b end.
Proof.
  destruct lead as [|n l]; [reflexivity|]. cbn. destruct (rev l ++ [n]) eqn:E; [|reflexivity].
  apply app_eq_nil in E. destruct E; discriminate.
Qed.

Lemma potentials_found : exists r, chemical_potentials_nd F c = Ok r /\ shape_of r = rows_axes ++ [fe_nc F] /\
  forall b, inside lead b -> forall i, (i < fe_nc F)%nat ->
    entry_of r (row_pos b ++ [i]) = potential_at F (entries (comp_at (fe_nc F) c b)) i.
Proof.
  destruct (chemical_potentials_nd_at F c (rev lead) rev_shape rev_nonneg) as (r & E & S & A).
  exists r. split; [exact E|]. split.
  - unfold shape_of. rewrite S, rev_rows. unfold rows_axes. cbn. destruct lead; [reflexivity|]. now rewrite rev_involutive.
  - intros b Hb i Hi. unfold entry_of. rewrite rev_app_distr. cbn [rev app].
    specialize (A i (rev b) (inside_cons _ _ _ _ Hi (inside_rev _ _ Hb))). rewrite rev_rows in A.
    replace (rev (row_pos b)) with (match lead with [] => [O] | _ => rev b end) by (unfold row_pos; destruct lead; reflexivity).
    rewrite A. apply potential_at_ext; auto. intros k Hk. symmetry. now apply comp_entries.
Qed.

Theorem C89_potentials : exists r, chemical_potentials_nd F c = Ok r /\ shape_of r = rows_axes ++ [fe_nc F] /\
  forall b, inside lead b -> chemical_potentials F (One (comp_at (fe_nc F) c b)) =
    Ok [map (fun i => entry_of r (row_pos b ++ [i])) (seq 0 (fe_nc F))].
Proof.
  destruct potentials_found as (r & E & S & A). exists r. split; [exact E|]. split; [exact S|].
  intros b Hb. unfold chemical_potentials. rewrite comp_check by auto. cbn [bind each rows_of]. do 2 f_equal.
  apply map_ext_in. intros i Hi. apply in_seq in Hi. symmetry. apply A; [auto|lia].
Qed.

Theorem C89_exchange z : index_ok (Some z) ->
  exists r, exchange_chemical_potentials_nd F c z = Ok r /\ shape_of r = lead ++ [fe_nc F] /\
    forall b, inside lead b -> exchange_chemical_potentials F (One (comp_at (fe_nc F) c b)) z =
      Ok (Single (map (fun i => entry_of r (b ++ [i])) (seq 0 (fe_nc F)))).
Proof.
  intros HI. destruct (index_found z HI) as (k & Hz & Hk).
  destruct (jacobian_nd_at F c (rev lead) rev_shape rev_nonneg) as (j & E & S & A).
  unfold exchange_chemical_potentials_nd. rewrite E. cbn [bind]. unfold take_last, width. rewrite S. cbn [hd tl]. rewrite Hz. cbn [bind].
  destruct (map2_one xsub j (newaxis (Build_arr (rev lead) (fun idx => a_at j (k :: idx)))) (fe_nc F) (rev lead) S eq_refl)
    as (r & E2 & S2 & A2).
  exists r. split; [exact E2|]. split; [unfold shape_of; rewrite S2; cbn; now rewrite rev_involutive|].
  intros b Hb. unfold exchange_chemical_potentials, jacobian. rewrite comp_check by auto. cbn [bind each]. rewrite Hz. cbn [bind omap].
  do 2 f_equal. rewrite listed_map. apply map_ext_in. intros i Hi. apply in_seq in Hi. cbn in Hi.
  rewrite listed_nth by auto. unfold entry_of. rewrite rev_app_distr. cbn [rev app].
  pose proof (inside_rev _ _ Hb) as Hb'.
  rewrite A2 by (apply inside_cons; [lia|auto]). cbn [newaxis a_at tl].
  rewrite !A by (apply inside_cons; [lia|auto]).
  f_equal; apply jacobian_at_ext; try lia; intros; now apply comp_entries.
Qed.

Theorem C89_pressure z : index_ok (Some z) ->
  exists r, pressure_nd F c z = Ok r /\ shape_of r = rows_axes /\
    forall b, inside lead b -> pressure F (One (comp_at (fe_nc F) c b)) z = Ok [entry_of r (row_pos b)].
Proof.
  intros HI. destruct (index_found z HI) as (k & Hz & Hk).
  destruct potentials_found as (m & E & S & A).
  assert (Sm : a_sh m = fe_nc F :: rev rows_axes).
  { unfold shape_of in S. rewrite <- (rev_involutive (a_sh m)), S, rev_app_distr. reflexivity. }
  unfold pressure_nd. rewrite E. cbn [bind]. unfold take_last, width. rewrite Sm. cbn [hd tl]. rewrite Hz. cbn [bind].
  eexists. split; [reflexivity|]. split; [unfold shape_of; cbn; apply rev_involutive|].
  intros b Hb. unfold pressure, chemical_potentials. rewrite comp_check by auto. cbn [bind each rows_of]. rewrite Hz. cbn [bind map].
  do 2 f_equal. unfold entry_of. cbn [map1 a_at]. rewrite listed_nth by auto. f_equal.
  rewrite <- A by auto. unfold entry_of. now rewrite rev_app_distr.
Qed.

Lemma ncount_list (p : xr -> bool) (l : list xr) : ncount (length l) (fun i => p (nth i l NaN)) = length (filter p l).
Proof.
  induction l as [|x l IH] using rev_ind; [reflexivity|]. rewrite app_length, filter_app, app_length. cbn [length filter].
  rewrite Nat.add_1_r. cbn [ncount].
  rewrite (ncount_ext _ _ (fun i => p (nth i l NaN))) by (intros i Hi; now rewrite app_nth1).
  rewrite IH, app_nth2, Nat.sub_diag by lia. cbn. destruct (p x); reflexivity.
Qed.

(** [eigvalsh] returns one value per row *)
Theorem C89_stability eigvalsh (conserved : bool) : (forall m, length (eigvalsh m) = length m) -> (0 < fe_nc F)%nat ->
  exists n r, num_unstable_modes_nd eigvalsh F c conserved = Ok n /\ is_stable_nd eigvalsh F c conserved = Ok r /\
    shape_of n = lead /\ shape_of r = lead /\
    forall b, inside lead b ->
      num_unstable_modes eigvalsh F (One (comp_at (fe_nc F) c b)) conserved = Ok (Single (entry_of n b)) /\
      is_stable eigvalsh F (One (comp_at (fe_nc F) c b)) conserved = Ok (Single (entry_of r b)).
Proof.
  intros HE Hnc. set (index := if conserved then Some 0%Z else None).
  assert (HI : index_ok index) by (unfold index; destruct conserved; cbn; [lia|exact I]).
  destruct (C89_hessian index HI) as (h & E & S & A). set (w := derivative_width index) in *.
  assert (Sh : a_sh h = w :: w :: rev lead).
  { unfold shape_of in S. rewrite <- (rev_involutive (a_sh h)), S, rev_app_distr. reflexivity. }
  unfold is_stable_nd, num_unstable_modes_nd. fold index. rewrite E. cbn [bind].
  eexists. eexists. split; [reflexivity|]. split; [reflexivity|].
  split; [unfold shape_of; cbn; rewrite Sh; cbn; apply rev_involutive|].
  split; [unfold shape_of; cbn; rewrite Sh; cbn; apply rev_involutive|].
  intros b Hb. unfold is_stable, num_unstable_modes. fold index. rewrite A by auto. cbn [bind omap].
  set (m := map _ (seq 0 w)).
  assert (K : entry_of (Build_arr (tl (a_sh (eigvalsh_nd eigvalsh h)))
       (fun idx => ncount (width (eigvalsh_nd eigvalsh h)) (fun i => xlt0 (a_at (eigvalsh_nd eigvalsh h) (i :: idx))))) b
     = length (filter xlt0 (eigvalsh m))).
  { rewrite <- ncount_list. rewrite HE. unfold m at 1. rewrite map_length, seq_length.
    unfold entry_of, eigvalsh_nd, width. cbn [a_at a_sh]. rewrite Sh. cbn [hd tl]. apply ncount_ext. intros i Hi. f_equal. f_equal.
    f_equal. unfold m, listed. apply map_ext. intros a. apply map_ext. intros d. unfold entry_of. now rewrite rev_app_distr. }
  split.
  - do 2 f_equal. symmetry. exact K.
  - do 2 f_equal. unfold entry_of, map1 in *. cbn [a_at] in *. now rewrite K.
Qed.
End Entrywise.

(* ------------------------------------------------------------------ *)
(** * Rejected arrays *)

(** [x] is the outcome of the check alone *)
Definition all_raise (F : fe) (c : arr R) (e : exn) : Prop :=
  free_energy_density_nd F c = Err e /\ chemical_potentials_nd F c = Err e /\
  (forall index, jacobian_nd F c index = Err e /\ hessian_nd F c index = Err e) /\
  (forall z, exchange_chemical_potentials_nd F c z = Err e /\ pressure_nd F c z = Err e) /\
  (forall eig conserved, num_unstable_modes_nd eig F c conserved = Err e /\ is_stable_nd eig F c conserved = Err e) /\
  (forall smax smin o axis, equilibration_error_nd smax smin F c o axis = Err e).

Lemma check_raises F c e : check_nd F c = Err e -> all_raise F c e.
Proof.
  intros H. unfold all_raise, free_energy_density_nd, equilibration_error_nd, pressure_nd, chemical_potentials_nd,
    exchange_chemical_potentials_nd, is_stable_nd, num_unstable_modes_nd, jacobian_nd, hessian_nd. rewrite H. cbn. auto 10.
Qed.

Theorem C89_rejected F c :
  (shape_of c = [] -> all_raise F c IndexError) /\
  (forall lead n, shape_of c = lead ++ [n] ->
     n <> fe_nc F \/ (exists idx, inside (shape_of c) idx /\ entry_of c idx < 0) -> all_raise F c VolumeFractionError).
Proof.
  split.
  - intros H. apply check_raises. unfold check_nd. unfold shape_of in H.
    rewrite <- (rev_involutive (a_sh c)), H. reflexivity.
  - intros lead n H HB. apply check_raises.
    assert (E : a_sh c = n :: rev lead) by (unfold shape_of in H; rewrite <- (rev_involutive (a_sh c)), H, rev_app_distr; reflexivity).
    unfold check_nd. rewrite E. destruct (Nat.eqb_spec n (fe_nc F)); [|reflexivity]. cbn [negb].
    destruct HB as [HB|(idx & HI & HB)]; [contradiction|].
    destruct (any_at (n :: rev lead) (fun idx0 => Rltb (a_at c idx0) 0)) eqn:B; [reflexivity|].
    rewrite any_at_false in B. specialize (B (rev idx)). unfold entry_of in HB. unfold shape_of in HI. apply inside_rev in HI.
    rewrite rev_involutive, E in HI. specialize (B HI). rewrite (proj2 (Rltb_true _ _)) in B by auto. discriminate.
Qed.

Theorem C89_bad_index F c lead z : shape_of c = lead ++ [fe_nc F] -> nonneg_nd c ->
  (z < - Z.of_nat (fe_nc F) \/ Z.of_nat (fe_nc F) <= z)%Z ->
  jacobian_nd F c (Some z) = Err IndexError /\ hessian_nd F c (Some z) = Err IndexError /\
  exchange_chemical_potentials_nd F c z = Err IndexError /\ pressure_nd F c z = Err IndexError.
Proof.
  intros HS HN Hz. pose proof (axis_index_bad _ _ Hz) as HB.
  pose proof (rev_shape F c lead HS) as S0. pose proof (rev_nonneg c HN) as N0.
  unfold pressure_nd, exchange_chemical_potentials_nd.
  destruct (jacobian_nd_at F c (rev lead) S0 N0) as (j & E & S & _). rewrite E. cbn [bind].
  destruct (potentials_found F c lead HS HN) as (m & E1 & S1 & _). rewrite E1. cbn [bind].
  unfold take_last, width. rewrite S. cbn [hd]. rewrite HB. cbn [bind].
  assert (Sm : hd O (a_sh m) = fe_nc F).
  { unfold shape_of in S1. rewrite <- (rev_involutive (a_sh m)), S1, rev_app_distr. reflexivity. }
  rewrite Sm, HB. cbn [bind].
  unfold jacobian_nd, hessian_nd. rewrite (check_nd_ok F c (rev lead)) by auto. cbn [bind].
  destruct (jacobian_impl_at F c (rev lead) S0) as (j' & E2 & S2 & _). rewrite E2. cbn [bind].
  destruct (hessian_impl_at F c (rev lead) S0) as (h & E3 & S3 & _). rewrite E3. cbn [bind].
  unfold delete_last, row_axis, width. rewrite S2, S3. cbn [hd tl]. rewrite HB. auto.
Qed.

(* ------------------------------------------------------------------ *)
(** * Equilibration error *)

(** [c[:, s]], the phases at position [s] of the axes between *)
Definition slice (n P : nat) (c : arr R) (s : list nat) : comps := Many n (map (fun p => comp_at n c (p :: s)) (seq 0 P)).

Lemma bc_shape_prefix : forall s t, bc_shape (s ++ t) s = Ok (s ++ t).
Proof.
  induction s as [|a s IH]; intros t; [apply bc_shape_nil|]. cbn. rewrite IH. cbn. now rewrite Nat.eqb_refl.
Qed.

Lemma bc_idx_prefix : forall s idx t, inside s idx -> bc_idx s (idx ++ t) = idx.
Proof.
  intros s idx t H. induction H as [|i n idx s Hi H IH]; [reflexivity|]. cbn. rewrite IH.
  destruct (Nat.eqb_spec n 1); [f_equal; lia|reflexivity].
Qed.

Section Deviations.
Variables (mus : arr xr) (n P : nat) (mid : list nat).
Hypothesis HM : a_sh mus = n :: rev mid ++ [P].

Definition entry_dev (s : list nat) (p i : nat) : R :=
  let mu := fun q => nan_to_num (a_at mus (i :: rev s ++ [q])) in mu p - rsum P mu / INR P.

Lemma deviations_nd : exists d, map2 Rminus (map1 nan_to_num mus) (mean_first (map1 nan_to_num mus)) = Ok d /\
  a_sh d = n :: rev mid ++ [P] /\
  forall s p i, inside mid s -> (p < P)%nat -> (i < n)%nat -> a_at d (i :: rev s ++ [p]) = entry_dev s p i.
Proof.
  set (m := map1 nan_to_num mus).
  assert (E1 : a_sh (mean_first m) = n :: rev mid).
  { cbn [mean_first a_sh]. unfold m. cbn [map1 a_sh]. rewrite HM, app_comm_cons. now rewrite removelast_last. }
  assert (E0 : a_sh m = (n :: rev mid) ++ [P]) by (unfold m; cbn [map1 a_sh]; rewrite HM; reflexivity).
  unfold map2. rewrite E0, E1, bc_shape_prefix. cbn [bind].
  eexists. split; [reflexivity|]. cbn [a_sh a_at]. split; [reflexivity|].
  intros s p i Hs Hp Hi. assert (I1 : inside (n :: rev mid) (i :: rev s)) by (apply inside_cons; [auto|now apply inside_rev]).
  assert (I2 : inside ((n :: rev mid) ++ [P]) (i :: rev s ++ [p])).
  { change (i :: rev s ++ [p]) with ((i :: rev s) ++ [p]). apply Forall2_app; [exact I1|]. constructor; [auto|constructor]. }
  rewrite bc_idx_same by exact I2.
  replace (bc_idx (n :: rev mid) (i :: rev s ++ [p])) with (i :: rev s)
    by (symmetry; exact (bc_idx_prefix (n :: rev mid) (i :: rev s) [p] I1)).
  unfold entry_dev. cbn [mean_first a_at]. rewrite E0, last_last. reflexivity.
Qed.
End Deviations.

Lemma lsum_listed {A} n (f : nat -> A) (g : A -> R) : lsum (listed n f) g = rsum n (fun i => g (f i)).
Proof.
  unfold listed. induction n as [|n IH]; [reflexivity|]. rewrite seq_S, map_app. cbn [map rsum plus].
  rewrite lsum_app, IH. cbn. lra.
Qed.

Lemma vnorm_ext o n f g : (forall i, (i < n)%nat -> f i = g i) -> vnorm o n f = vnorm o n g.
Proof.
  intros H. assert (E : forall (h : R -> R), rsum n (fun i => h (f i)) = rsum n (fun i => h (g i)))
    by (intros h; apply rsum_ext; intros i Hi; now rewrite H).
  destruct o as [| | |p]; cbn [vnorm].
  - f_equal. apply (E (fun x => x * x)).
  - apply vmax_ext. intros i Hi. now rewrite H.
  - apply vmin_ext. intros i Hi. now rewrite H.
  - rewrite (ncount_ext n (fun i => negb (Reqb (f i) 0)) (fun i => negb (Reqb (g i) 0))) by (intros i Hi; now rewrite H).
    rewrite (ncount_ext n (fun i => Reqb (f i) 0) (fun i => Reqb (g i) 0)) by (intros i Hi; now rewrite H).
    rewrite (E (fun x => Rabs x)), (E (fun x => x * x)), (E (fun x => rpow (Rabs x) p)), (E (fun x => Rpower (Rabs x) p)). reflexivity.
Qed.

(** what is known of the singular values: they belong to the entries of the matrix *)
Definition of_entries (sv : nat -> nat -> mat -> R) : Prop :=
  forall np n D D', (forall p i, (p < np)%nat -> (i < n)%nat -> D p i = D' p i) -> sv np n D = sv np n D'.

Lemma mnorm_ext smax smin o np n D D' : of_entries smax -> of_entries smin ->
  (forall p i, (p < np)%nat -> (i < n)%nat -> D p i = D' p i) -> mnorm smax smin o np n D = mnorm smax smin o np n D'.
Proof.
  intros H1 H2 H. assert (R1 : forall h, vmax np (fun p => rsum n (fun i => h (D p i))) = vmax np (fun p => rsum n (fun i => h (D' p i))) /\
    vmin np (fun p => rsum n (fun i => h (D p i))) = vmin np (fun p => rsum n (fun i => h (D' p i)))).
  { intros h. split; [apply vmax_ext|apply vmin_ext]; intros p Hp; apply rsum_ext; intros i Hi; now rewrite H. }
  assert (R2 : forall h, vmax n (fun i => rsum np (fun p => h (D p i))) = vmax n (fun i => rsum np (fun p => h (D' p i))) /\
    vmin n (fun i => rsum np (fun p => h (D p i))) = vmin n (fun i => rsum np (fun p => h (D' p i)))).
  { intros h. split; [apply vmax_ext|apply vmin_ext]; intros i Hi; apply rsum_ext; intros p Hp; now rewrite H. }
  destruct o as [| | |p]; cbn [mnorm].
  - do 2 f_equal. apply rsum_ext. intros p Hp. apply rsum_ext. intros i Hi. now rewrite H.
  - f_equal. apply (R1 Rabs).
  - f_equal. apply (R1 Rabs).
  - rewrite (proj1 (R2 Rabs)), (proj2 (R2 Rabs)), (H1 np n D D' H), (H2 np n D D' H). reflexivity.
Qed.

Section Errors.
Context (smax smin : nat -> nat -> mat -> R).
Notation err := (equilibration_error_ord smax smin).
Notation err_nd := (equilibration_error_nd smax smin).

Section Axes.
Variables (F : fe) (c : arr R) (P : nat) (mid : list nat).
Hypothesis HS : shape_of c = P :: mid ++ [fe_nc F].
Hypothesis HN : nonneg_nd c.

(** chemical potentials of the phases of one slice *)
Definition slice_mus (s : list nat) : list (list xr) :=
  listed P (fun p => listed (fe_nc F) (potential_at F (entries (comp_at (fe_nc F) c (p :: s))))).

Lemma slice_potentials s : inside mid s -> chemical_potentials F (slice (fe_nc F) P c s) = Ok (slice_mus s).
Proof.
  intros Hs. unfold chemical_potentials.
  assert (E : check_fractions F (slice (fe_nc F) P c s) = Ok tt).
  { apply check_ok; [reflexivity|]. cbn. apply Forall_forall. intros r Hr. apply in_map_iff in Hr. destruct Hr as (p & <- & Hp).
    apply Forall_forall. intros x Hx. unfold comp_at in Hx. apply in_map_iff in Hx. destruct Hx as (i & <- & Hi).
    apply in_seq in Hp. apply in_seq in Hi. apply HN. rewrite HS. cbn. constructor; [lia|].
    apply Forall2_app; [exact Hs|]. constructor; [lia|constructor]. }
  rewrite E. cbn [bind]. unfold slice. cbn [each rows_of]. rewrite map_map. reflexivity.
Qed.

Lemma slice_mus_length s : length (slice_mus s) = P.
Proof. apply listed_length. Qed.

Lemma deviations_found : exists mus d, chemical_potentials_nd F c = Ok mus /\
  map2 Rminus (map1 nan_to_num mus) (mean_first (map1 nan_to_num mus)) = Ok d /\
  a_sh d = fe_nc F :: rev mid ++ [P] /\
  forall s p i, inside mid s -> (p < P)%nat -> (i < fe_nc F)%nat ->
    a_at d (i :: rev s ++ [p]) = dev_matrix (fe_nc F) (slice_mus s) p i.
Proof.
  destruct (potentials_found F c (P :: mid) HS HN) as (mus & E & S & A).
  assert (Sm : a_sh mus = fe_nc F :: rev mid ++ [P]).
  { unfold shape_of in S. rewrite <- (rev_involutive (a_sh mus)), S, rev_app_distr. reflexivity. }
  destruct (deviations_nd mus (fe_nc F) P mid Sm) as (d & E1 & S1 & A1).
  exists mus, d. split; [exact E|]. split; [exact E1|]. split; [exact S1|].
  intros s p i Hs Hp Hi. rewrite A1 by auto. rewrite dev_entry by (now rewrite slice_mus_length). rewrite slice_mus_length.
  assert (K : forall q, (q < P)%nat -> nan_to_num (a_at mus (i :: rev s ++ [q])) = nan_to_num (nth i (nth q (slice_mus s) []) NaN)).
  { intros q Hq. f_equal. unfold slice_mus. rewrite listed_nth, listed_nth by auto.
    rewrite <- (A (q :: s)) by (try constructor; auto). unfold entry_of, row_pos. rewrite rev_app_distr. reflexivity. }
  unfold entry_dev. rewrite K by auto. f_equal. f_equal. apply rsum_ext. exact K.
Qed.

(** [axis=0]: by component, for every slice *)
Theorem C89_by_component o : exists r, err_nd F c o ByComponent = Ok r /\ shape_of r = mid ++ [fe_nc F] /\
  forall s, inside mid s -> err F (slice (fe_nc F) P c s) o ByComponent =
    Ok (map (fun i => entry_of r (s ++ [i])) (seq 0 (fe_nc F))).
Proof.
  destruct deviations_found as (mus & d & E & E1 & S & A). unfold equilibration_error_nd. rewrite E. cbn [bind]. rewrite E1. cbn [bind norm_nd].
  eexists. split; [reflexivity|]. split.
  - unfold shape_of. cbn [a_sh]. rewrite S, app_comm_cons, removelast_last. cbn. now rewrite rev_involutive.
  - intros s Hs. unfold equilibration_error_ord. rewrite slice_potentials by auto. cbn [bind]. rewrite slice_mus_length. f_equal.
    apply map_ext_in. intros i Hi. apply in_seq in Hi. cbn in Hi. unfold entry_of. cbn [a_at]. rewrite S, app_comm_cons, last_last.
    apply vnorm_ext. intros p Hp. rewrite rev_app_distr. cbn [rev app]. symmetry. apply A; auto. lia.
Qed.

Lemma sum_at_snoc : forall s n f, sum_at (s ++ [n]) f = rsum n (fun p => sum_at s (fun idx => f (idx ++ [p]))).
Proof.
  induction s as [|a s IH]; intros n f; [cbn; reflexivity|]. cbn [sum_at app]. rewrite IH. reflexivity.
Qed.

Lemma sum_at_ext : forall s f g, (forall idx, inside s idx -> f idx = g idx) -> sum_at s f = sum_at s g.
Proof.
  induction s as [|n s IH]; intros f g H; [apply H; constructor|]. cbn. apply IH. intros idx HI. apply rsum_ext. intros i Hi.
  apply H. now apply inside_cons.
Qed.

(** sum of [f] over all positions inside a shape *)
Fixpoint total (s : list nat) (f : list nat -> R) : R :=
  match s with [] => f [] | n :: s' => rsum n (fun i => total s' (fun idx => f (i :: idx))) end.

Lemma sum_at_total : forall s f, sum_at (rev s) f = total s (fun idx => f (rev idx)).
Proof.
  induction s as [|n s IH]; intros f; [reflexivity|]. cbn [rev total]. rewrite sum_at_snoc. apply rsum_ext. intros p _. apply IH.
Qed.

Lemma total_ext : forall s f g, (forall idx, inside s idx -> f idx = g idx) -> total s f = total s g.
Proof.
  induction s as [|n s IH]; intros f g H; [apply H; constructor|]. cbn. apply rsum_ext. intros i Hi. apply IH. intros idx HI.
  apply H. now apply inside_cons.
Qed.

Lemma total_swap : forall s n g, rsum n (fun p => total s (g p)) = total s (fun idx => rsum n (fun p => g p idx)).
Proof.
  induction s as [|a s IH]; intros n g; [reflexivity|]. cbn [total]. rewrite rsum_swap. apply rsum_ext. intros i _. apply (IH n (fun p idx => g p (i :: idx))).
Qed.

(** [axis=None]: the squares of the errors of the slices add up *)
Theorem C89_by_both (e : list nat -> R) :
  (forall s, inside mid s -> err F (slice (fe_nc F) P c s) Onone ByBoth = Ok [e s]) ->
  exists r, err_nd F c Onone ByBoth = Ok r /\ shape_of r = [] /\ 0 <= entry_of r [] /\
    entry_of r [] * entry_of r [] = total mid (fun s => e s * e s).
Proof.
  intros He. destruct deviations_found as (mus & d & E & E1 & S & A). unfold equilibration_error_nd. rewrite E. cbn [bind].
  rewrite E1. cbn [bind norm_nd]. eexists. split; [reflexivity|]. split; [reflexivity|]. split; [apply sqrt_pos|].
  unfold entry_of. cbn [a_at rev]. rewrite S.
  set (D := fun s p i => dev_matrix (fe_nc F) (slice_mus s) p i).
  assert (K : sum_at (fe_nc F :: rev mid ++ [P]) (fun idx => a_at d idx * a_at d idx) =
    total mid (fun s => rsum P (fun p => rsum (fe_nc F) (fun i => D s p i * D s p i)))).
  { cbn [sum_at]. change (rev mid ++ [P]) with (rev (P :: mid)). rewrite sum_at_total. cbn [total].
    rewrite (total_swap mid P (fun p idx => rsum (fe_nc F) (fun i => a_at d (i :: rev (p :: idx)) * a_at d (i :: rev (p :: idx))))).
    apply total_ext. intros s Hs. apply rsum_ext. intros p Hp. apply rsum_ext. intros i Hi. cbn [rev]. now rewrite A by auto. }
  rewrite K. assert (Q : forall s, inside mid s -> rsum P (fun p => rsum (fe_nc F) (fun i => D s p i * D s p i)) = e s * e s).
  { intros s Hs. specialize (He s Hs). unfold equilibration_error_ord in He. rewrite slice_potentials in He by auto.
    cbn [bind mnorm] in He. rewrite slice_mus_length in He. injection He as <-. rewrite sqrt_sqrt; [reflexivity|].
    apply rsum_nonneg. intros. apply rsum_nonneg. intros. nra. }
  rewrite sqrt_sqrt; [now apply total_ext|].
  rewrite <- K. clear. generalize (fe_nc F :: rev mid ++ [P]). intros s. 
  assert (G : forall (t : list nat) f, (forall idx, 0 <= f idx) -> 0 <= sum_at t f).
  { induction t as [|a t IH]; intros f Hf; [apply Hf|]. cbn. apply IH. intros idx. apply rsum_nonneg. auto. }
  apply G. intros idx. nra.
Qed.

(** other orders need a matrix *)
Theorem C89_by_both_order o : o <> Onone -> mid <> [] -> err_nd F c o ByBoth = Err ValueError.
Proof.
  intros Ho Hm. destruct deviations_found as (mus & d & E & E1 & S & A). unfold equilibration_error_nd. rewrite E. cbn [bind].
  rewrite E1. cbn [bind norm_nd]. rewrite S. destruct mid as [|m l]; [congruence|]. cbn [rev].
  destruct (rev l ++ [m]) as [|x [|y t]] eqn:R; [apply app_eq_nil in R; destruct R; discriminate| |];
  destruct o; try congruence; reflexivity.
Qed.

(** [axis=1] of an array with axes between: the norm runs over the first of these,
    not over the components. *)
Theorem C89_axis_one m rest o : mid = m :: rest -> exists r, err_nd F c o ByPhase = Ok r /\
  shape_of r = P :: rest ++ [fe_nc F] /\
  forall p t i, (p < P)%nat -> inside rest t -> (i < fe_nc F)%nat ->
    entry_of r (p :: t ++ [i]) = vnorm o m (fun a => dev_matrix (fe_nc F) (slice_mus (a :: t)) p i).
Proof.
  intros Em. destruct deviations_found as (mus & d & E & E1 & S & A). unfold equilibration_error_nd. rewrite E. cbn [bind].
  rewrite E1. cbn [bind norm_nd].
  assert (R1 : removelast (a_sh d) = (fe_nc F :: rev rest) ++ [m])
    by (rewrite S, app_comm_cons, removelast_last, Em; reflexivity).
  assert (R2 : last (a_sh d) O = P) by (rewrite S, app_comm_cons; apply last_last).
  rewrite R1, R2, removelast_last, last_last. eexists. split; [reflexivity|]. split.
  - unfold shape_of. cbn [a_sh]. rewrite rev_app_distr. cbn. now rewrite rev_involutive.
  - intros p t i Hp Ht Hi. unfold entry_of. cbn [a_at rev]. rewrite rev_app_distr. cbn [rev app].
    rewrite app_comm_cons, removelast_last, last_last. apply vnorm_ext. intros a Ha.
    rewrite <- (A (a :: t)); [|rewrite Em; constructor; auto|auto|auto]. f_equal. cbn. now rewrite <- app_assoc.
Qed.
End Axes.

(** a two-dimensional array: the function of C48 and C77 *)
Definition ravel1 (r : arr R) : list R :=
  match shape_of r with [] => [entry_of r []] | n :: _ => map (fun i => entry_of r [i]) (seq 0 n) end.

Theorem C89_two F c P o axis : of_entries smax -> of_entries smin ->
  shape_of c = [P; fe_nc F] -> nonneg_nd c ->
  (let* r := err_nd F c o axis in Ok (ravel1 r)) = err F (Many (fe_nc F) (map (fun p => comp_at (fe_nc F) c [p]) (seq 0 P))) o axis.
Proof.
  intros H1 H2 HS HN. change (map (fun p => comp_at (fe_nc F) c [p]) (seq 0 P)) with (map (fun p => comp_at (fe_nc F) c (p :: [])) (seq 0 P)).
  change (Many (fe_nc F) (map (fun p => comp_at (fe_nc F) c (p :: [])) (seq 0 P))) with (slice (fe_nc F) P c []).
  destruct (deviations_found F c P [] HS HN) as (mus & d & E & E1 & S & A).
  assert (I0 : inside [] []) by constructor. cbn [rev app] in S, A.
  unfold equilibration_error_nd. rewrite E. cbn [bind]. rewrite E1. cbn [bind].
  unfold equilibration_error_ord. rewrite (slice_potentials F c P []) by auto. cbn [bind]. rewrite slice_mus_length.
  destruct axis; unfold norm_nd; rewrite S; cbn [removelast last].
  - cbn [bind]. f_equal. unfold ravel1, shape_of. cbn [a_sh rev app]. apply map_ext_in. intros i Hi. apply in_seq in Hi. cbn in Hi.
    unfold entry_of. cbn [a_at rev app]. apply vnorm_ext. intros p Hp. apply (A []); auto; lia.
  - cbn [bind]. f_equal. unfold ravel1, shape_of. cbn [a_sh rev app]. apply map_ext_in. intros p Hp. apply in_seq in Hp. cbn in Hp.
    unfold entry_of. cbn [a_at rev app removelast last]. apply vnorm_ext. intros i Hi. apply (A []); auto; lia.
  - assert (M : mnorm smax smin o P (fe_nc F) (fun p i => a_at d [i; p]) = mnorm smax smin o P (fe_nc F) (dev_matrix (fe_nc F) (slice_mus F c P []))).
    { apply mnorm_ext; auto. intros p i Hp Hi. apply (A []); auto. }
    rewrite <- M. destruct o; [reflexivity| | |]; (destruct (mnorm _ _ _ _ _ _); reflexivity).
Qed.

Lemma norm_zero d n mid axis : a_sh d = n :: rev mid ++ [1%nat] -> (forall idx, inside (a_sh d) idx -> a_at d idx = 0) ->
  exists r, norm_nd smax smin d Onone axis = Ok r /\ forall idx, inside (shape_of r) idx -> entry_of r idx = 0.
Proof.
  intros S Z.
  unfold norm_nd. rewrite S. destruct axis; (eexists; split; [reflexivity|]).
  - intros idx HI. unfold shape_of in HI. cbn [a_sh] in HI. apply inside_rev in HI. rewrite rev_involutive in HI.
    rewrite app_comm_cons, removelast_last in HI. unfold entry_of. cbn [a_at]. rewrite app_comm_cons, last_last.
    apply vnorm_zero; [left; exact I|]. intros p Hp. apply Z. rewrite S, app_comm_cons. apply Forall2_app; [exact HI|]. constructor; [exact Hp|constructor].
  - intros idx HI. unfold shape_of in HI. cbn [a_sh] in HI. apply inside_rev in HI. rewrite rev_involutive in HI.
    unfold entry_of. cbn [a_at]. set (s := n :: rev mid) in *. change (n :: rev mid ++ [1%nat]) with (s ++ [1%nat]) in *.
    rewrite removelast_last, last_last in *. apply vnorm_zero; [left; exact I|]. intros a Ha.
    apply Z. rewrite S. apply Forall2_app_inv_r in HI. destruct HI as (i1 & i2 & I1 & I2 & EI). rewrite EI.
    inversion I2 as [|p ? ? ? Hp I3]; subst. inversion I3; subst. rewrite removelast_last, last_last.
    assert (Es : s = removelast s ++ [last s O]) by (apply app_removelast_last; unfold s; discriminate).
    change (n :: rev mid ++ [1%nat]) with (s ++ [1%nat]). rewrite Es, <- app_assoc. cbn [app].
    apply Forall2_app; [exact I1|]. constructor; [exact Ha|]. constructor; [exact Hp|constructor].
  - intros idx HI. inversion HI; subst. unfold entry_of. cbn [a_at rev].
    rewrite (sum_at_ext _ _ (fun _ => 0)); [|intros idx H; rewrite Z by (now rewrite S); ring].
    transitivity (sqrt 0); [f_equal|apply sqrt_0]. generalize (n :: rev mid ++ [1%nat]). intros t.
    induction t as [|b t IH]; [reflexivity|]. cbn. rewrite <- IH. apply sum_at_ext. intros. now apply rsum_zero.
Qed.

(** With a first axis of length one the deviations vanish, whatever the phases
    on the other axes. *)
Theorem C89_first_axis_one F c mid axis : shape_of c = 1%nat :: mid ++ [fe_nc F] -> nonneg_nd c ->
  exists r, err_nd F c Onone axis = Ok r /\ forall idx, inside (shape_of r) idx -> entry_of r idx = 0.
Proof.
  intros HS HN. pose proof (deviations_found F c 1 mid HS HN) as (mus & d & E & E1 & S & A).
  assert (Z : forall idx, inside (a_sh d) idx -> a_at d idx = 0).
  { intros idx HI. rewrite S in HI. inversion HI as [|i ? t ? Hi Ht]; subst. apply inside_rev in Ht.
    rewrite rev_app_distr, rev_involutive in Ht. cbn in Ht. inversion Ht as [|p ? s ? Hp Hs Et]; subst.
    assert (E2 : t = rev s ++ [p]) by (rewrite <- (rev_involutive t), <- Et; reflexivity).
    rewrite E2, A by auto. rewrite dev_entry by (rewrite slice_mus_length; auto). rewrite slice_mus_length.
    replace p with O by lia. cbn [rsum INR]. lra. }
  unfold equilibration_error_nd. rewrite E. cbn [bind]. rewrite E1. cbn [bind]. now apply (norm_zero d (fe_nc F) mid).
Qed.

(** one composition is balanced with itself *)
Theorem C89_one F c axis : shape_of c = [fe_nc F] -> nonneg_nd c ->
  exists r, err_nd F c Onone axis = Ok r /\ forall idx, inside (shape_of r) idx -> entry_of r idx = 0.
Proof.
  intros HS HN. destruct (potentials_found F c [] HS HN) as (mus & E & S & A).
  assert (Sm : a_sh mus = fe_nc F :: rev [] ++ [1%nat]).
  { unfold shape_of in S. rewrite <- (rev_involutive (a_sh mus)), S. reflexivity. }
  destruct (deviations_nd mus (fe_nc F) 1 [] Sm) as (d & E1 & S1 & A1).
  unfold equilibration_error_nd. rewrite E. cbn [bind]. rewrite E1. cbn [bind]. apply (norm_zero d (fe_nc F) []); [exact S1|].
  intros idx HI. rewrite S1 in HI. cbn in HI. inversion HI as [|i ? t ? Hi Ht]; subst. inversion Ht as [|p ? t' ? Hp Ht']; subst.
  inversion Ht'; subst. change [i; p] with (i :: rev [] ++ [p]). rewrite A1; [|constructor|auto|auto].
  unfold entry_dev. replace p with O by lia. cbn [rsum INR]. lra.
Qed.
End Errors.

(** With C41: the numbers. *)
Theorem C89_values F c lead : wf_fe F -> shape_of c = lead ++ [fe_nc F] -> nonneg_nd c ->
  exists r, free_energy_density_nd F c = Ok r /\ shape_of r = lead /\
    forall b, inside lead b ->
      entry_of r b = Fin (fh (fe_nc F) (fe_chis F) (fe_sizes F) (fun i => entry_of c (b ++ [i]))).
Proof.
  intros WF HS HN. destruct (C89_energy F c lead HS HN) as (r & E & S & A). exists r. split; [exact E|]. split; [exact S|].
  intros b Hb. specialize (A b Hb). unfold free_energy_density in A. rewrite (comp_check F c lead) in A by auto.
  cbn [bind each] in A. injection A as <-.
  rewrite (energy_at_ext F _ (fun i => entry_of c (b ++ [i]))).
  - apply energy_fin; auto. intros i Hi. apply HN. rewrite HS. apply Forall2_app; [exact Hb|]. constructor; [auto|constructor].
  - intros i Hi. rewrite comp_entries by auto. unfold entry_of. now rewrite rev_app_distr.
Qed.

(** Two phases that are not balanced in an array of shape (1, 2, 2): no error is
    reported along any axis, in particular not by phase. *)
Theorem C89_refuted (smax smin : nat -> nat -> mat -> R) :
  let F := {| fe_nc := 2; fe_chis := fun _ _ => 0; fe_sizes := fun _ => 1 |} in
  let c := Build_arr [2; 2; 1]%nat (fun idx => match idx with
    | 0%nat :: 0%nat :: _ => 1 / 2 | 1%nat :: 0%nat :: _ => 1 / 2 | 0%nat :: 1%nat :: _ => 1 / 4 | _ => 3 / 4 end) in
  wf_fe F /\ shape_of c = [1; 2; 2]%nat /\ nonneg_nd c /\
  (forall axis, exists r, equilibration_error_nd smax smin F c Onone axis = Ok r /\
     forall idx, inside (shape_of r) idx -> entry_of r idx = 0) /\
  exists errs, equilibration_error F (Many 2 [comp_at 2 c [0; 0]; comp_at 2 c [0; 1]]%nat) ByPhase = Ok errs /\
    ~ Forall (fun e => e = 0) errs.
Proof.
  intros F c.
  assert (WF : wf_fe F) by (split; cbn; intros; lra).
  assert (HN : nonneg_nd c).
  { intros idx _. unfold entry_of. cbn. destruct (rev idx) as [|[|[|a]] [|[|[|b]] l]]; lra. }
  split; [exact WF|]. split; [reflexivity|]. split; [exact HN|]. split.
  { intros axis. now apply (C89_first_axis_one smax smin F c [2%nat] axis). }
  set (m := Many 2 [comp_at 2 c [0; 0]; comp_at 2 c [0; 1]]%nat).
  assert (HP : positive m).
  { unfold positive, m. cbn. repeat constructor; lra. }
  destruct (C48_zero F m WF ltac:(cbn; repeat constructor) eq_refl HP) as (errs & mus & E & Em & _ & _ & Z).
  exists errs. split; [exact E|]. rewrite Z. intros H.
  unfold chemical_potentials in Em. rewrite check_ok in Em by (try reflexivity; auto using positive_nonneg).
  cbn [bind each rows_of m map] in Em. injection Em as <-.
  specialize (H _ _ (or_introl eq_refl) (or_intror (or_introl eq_refl))).
  assert (K : forall k, (k < 2)%nat -> forall j, (j < 2)%nat -> 0 < entries (comp_at 2 c [0; k]%nat) j).
  { intros k Hk j Hj. unfold entries, comp_at, entry_of. cbn. destruct k as [|[|k]]; [| |lia]; destruct j as [|[|j]]; try lia; lra. }
  assert (Q : potential_at F (entries (comp_at 2 c [0; 0]%nat)) 0 = potential_at F (entries (comp_at 2 c [0; 1]%nat)) 0).
  { apply (f_equal (fun l => nth 0 l NaN)) in H. rewrite !listed_nth in H by (cbn; lia). exact H. }
  rewrite !potential_fin in Q; auto; try (cbn; lia); try (intros j Hj; left; apply K; auto); try (apply K; lia).
  injection Q as Q. unfold mu_of, fh, dfh, entries, comp_at, entry_of in Q. cbn in Q.
  assert (L : ln (1 / 4) < ln (1 / 2)) by (apply ln_increasing; lra). lra.
Qed.
