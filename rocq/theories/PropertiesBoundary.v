(** PropertiesBoundary.v -- C99: compositions with absent components. *)

From Coquelicot Require Import Coquelicot.
From Coq Require Import Reals Lra Lia List Bool Arith ZArith.
From Verif Require Import Base ModelCommon ModelFreeEnergy ProofsFreeEnergy PropertiesFreeEnergy.
Import ListNotations.
Open Scope R_scope.

(** component [i] of the composition is absent *)
Definition absent (phi : list R) (i : nat) : bool := if Req_EM_T (entries phi i) 0 then true else false.

(** directions that leave the absent components alone *)
Definition stays_absent (nc : nat) (phi y : vec) : Prop := forall i, (i < nc)%nat -> phi i = 0 -> y i = 0.

Lemma fh_slope_supp nc chi l phi y : (forall i, (i < nc)%nat -> l i <> 0) -> (forall i, (i < nc)%nat -> 0 <= phi i) ->
  (forall i j, (i < nc)%nat -> (j < nc)%nat -> chi i j = chi j i) -> stays_absent nc phi y ->
  slope (fh nc chi l) phi y (rsum nc (fun i => y i * dfh nc chi l phi i)).
Proof.
  intros Hl Hp HS HY. unfold slope. rewrite <- line1_0 by auto. unfold fh, line1.
  apply (@is_derive_plus R_AbsRing R_NormedModule).
  - apply is_derive_rsum. intros i Hi. specialize (Hp i Hi). specialize (Hl i Hi). specialize (HY i Hi).
    unfold along in *. destruct Hp as [Hp|Hp].
    + auto_derive; [lra|field; lra].
    + rewrite HY by auto. rewrite <- Hp. rewrite Rmult_0_l.
      apply (is_derive_ext (fun _ => 0)); [intros t; rewrite Rmult_0_r, Rplus_0_r; change (0 = 0 * ln 0 / l i); unfold Rdiv; ring|].
      apply @is_derive_const.
  - apply (is_derive_scal (fun s => rsum nc (fun i => rsum nc (fun j => chi i j * along phi y s i * along phi y s j)))).
    apply is_derive_rsum. intros i Hi. apply is_derive_rsum. intros j Hj. unfold along. auto_derive; [auto|ring].
Qed.

Definition big_sizes (F : fe) : Prop := forall i, (i < fe_nc F)%nat -> 0 < fe_sizes F i.

Section Values.
Variables (F : fe) (phi : list R).
Hypothesis WF : wf_fe F.
Hypothesis WL : big_sizes F.
Hypothesis HL : length phi = fe_nc F.
Hypothesis HP : Forall (fun x => 0 <= x) phi.
Let n := fe_nc F.

Lemma absent_case i : (i < n)%nat -> if absent phi i then entries phi i = 0 else 0 < entries phi i.
Proof using HP.
  intros Hi. pose proof (nonneg_entries phi n HP i Hi). unfold absent. destruct (Req_EM_T (entries phi i) 0); lra.
Qed.

Lemma checked : check_fractions F (One phi) = Ok tt.
Proof using HL HP. apply check_ok; [exact HL|]. repeat constructor. exact HP. Qed.

(** the gradient and the chemical potentials where they are finite *)
Let g : vec := dfh n (fe_chis F) (fe_sizes F) (entries phi).
Let f : R := fh n (fe_chis F) (fe_sizes F) (entries phi).
Let mu : vec := mu_of F (entries phi).

Lemma jac_value i : (i < n)%nat -> jacobian_at F (entries phi) i = if absent phi i then NInf else Fin (g i).
Proof using WF WL HP.
  intros Hi. pose proof (absent_case i Hi) as A. destruct (absent phi i).
  - unfold jacobian_at, int_jacobian, ent_jacobian, xlog. rewrite A. destruct (Req_EM_T 0 0); [|congruence].
    pose proof (WL i Hi). rewrite xdiv_fin by lra. cbn. destruct (Rlt_dec (fe_sizes F i) 0); [lra|reflexivity].
  - apply jacobian_fin; auto.
Qed.

Lemma pot_value i : (i < n)%nat -> potential_at F (entries phi) i = if absent phi i then NInf else Fin (mu i).
Proof using WF WL HP.
  intros Hi. unfold potential_at. rewrite energy_fin, jf_fin by (auto; apply nonneg_entries; exact HP).
  rewrite jac_value by auto. destruct (absent phi i); reflexivity.
Qed.

Lemma hess_value i j : (i < n)%nat ->
  hessian_at F (entries phi) i j =
  if (Nat.eqb i j && absent phi i)%bool then PInf else Fin (fe_chis F i j + if Nat.eqb i j then fe_sizes F i / entries phi i else 0).
Proof using WL HP.
  intros Hi. pose proof (absent_case i Hi) as A. destruct (Nat.eqb_spec i j) as [->|Hij].
  - cbn [andb]. destruct (absent phi j).
    + unfold hessian_at, int_hessian, ent_hessian, xdiv, xscale. rewrite Nat.eqb_refl, A. pose proof (WL j Hi).
      destruct (Req_EM_T 0 0); [|congruence]. destruct (Req_EM_T 1 0); [lra|]. destruct (Rlt_dec 1 0); [lra|].
      destruct (Req_EM_T (fe_sizes F j) 0); [lra|]. destruct (Rlt_dec (fe_sizes F j) 0); [lra|]. reflexivity.
    + rewrite hessian_fin by (auto; lra). now rewrite Nat.eqb_refl.
  - cbn [andb]. unfold hessian_at, int_hessian, ent_hessian. destruct (Nat.eqb_spec i j); [congruence|]. cbn. f_equal. ring.
Qed.

(** C99: the energy is finite.  The derivative and the potential of an absent
    component are minus infinity; those of the others are finite, the
    derivative being that of the energy. *)
Theorem C99_values : exists f g mu,
  free_energy_density F (One phi) = Ok (Single (Fin f)) /\
  jacobian F (One phi) None = Ok (Single (listed n (fun i => if absent phi i then NInf else Fin (g i)))) /\
  chemical_potentials F (One phi) = Ok [listed n (fun i => if absent phi i then NInf else Fin (mu i))] /\
  (forall i, (i < n)%nat -> absent phi i = false -> slope (density F) (entries phi) (unit_vec i) (g i)) /\
  (forall i j, mu i - mu j = g i - g j) /\
  (rsum n (entries phi) = 1 -> rsum n (fun i => entries phi i * mu i) = f).
Proof using WF WL HL HP.
  exists f, g, mu. unfold free_energy_density, jacobian, chemical_potentials. rewrite checked. cbn [bind each rows_of].
  fold n. split; [now rewrite energy_fin by (auto; apply nonneg_entries; exact HP)|].
  split; [do 2 f_equal; apply listed_ext; apply jac_value|].
  split; [do 2 f_equal; apply listed_ext; apply pot_value|].
  split.
  { intros i Hi HA. pose proof (absent_case i Hi) as A. rewrite HA in A. unfold density, g. fold n.
    rewrite <- (rsum_unit n i (dfh n (fe_chis F) (fe_sizes F) (entries phi)) Hi).
    apply fh_slope_supp; [apply WF|apply nonneg_entries; exact HP|apply WF|].
    intros j Hj E. unfold unit_vec. destruct (Nat.eqb_spec j i); [subst; lra|reflexivity]. }
  split; [intros i j; unfold mu, mu_of; fold n g; ring|].
  intros H1. unfold mu, mu_of. fold n g f.
  rewrite (rsum_ext n _ (fun i => entries phi i * (f - rsum n (fun k => entries phi k * g k)) + entries phi i * g i)) by (intros; ring).
  rewrite rsum_plus, rsum_scal_r, H1. ring.
Qed.

(** Minus infinity is the limit of the derivative when the component vanishes. *)
Theorem C99_limit i : (i < n)%nat -> absent phi i = true ->
  forall M, exists d, 0 < d /\ forall t, 0 < t < d -> exists v,
    jacobian_at F (along (entries phi) (unit_vec i) t) i = Fin v /\ v < M.
Proof using WF WL HP.
  intros Hi HA M. pose proof (absent_case i Hi) as A. rewrite HA in A. pose proof (WL i Hi) as Hl.
  set (chi := fe_chis F). set (l := fe_sizes F) in *.
  set (S0 := rsum n (fun j => chi i j * entries phi j)). set (c := Rabs (chi i i)).
  set (e := l i * (M - S0 - c) - 1).
  exists (Rmin 1 (exp e)). split; [apply Rmin_pos; [lra|apply exp_pos]|]. intros t [T0 T1].
  pose proof (Rmin_l 1 (exp e)). pose proof (Rmin_r 1 (exp e)).
  assert (P : along (entries phi) (unit_vec i) t i = t).
  { unfold along, unit_vec. rewrite Nat.eqb_refl, A. ring. }
  eexists. split; [apply (jacobian_fin F WF); [exact Hi|rewrite P; exact T0]|].
  unfold dfh. rewrite P. fold n chi l.
  assert (E : rsum n (fun j => chi i j * along (entries phi) (unit_vec i) t j) = S0 + t * chi i i).
  { rewrite (rsum_ext n _ (fun j => chi i j * entries phi j + t * (unit_vec i j * chi i j))) by (intros; unfold along; ring).
    rewrite rsum_plus, rsum_scal_l, rsum_unit by auto. reflexivity. }
  rewrite E.
  assert (L : ln t < e) by (rewrite <- (ln_exp e); apply ln_increasing; lra).
  assert (B : t * chi i i <= c).
  { pose proof (Rle_abs (chi i i)). pose proof (Rabs_pos (chi i i)). fold c in H1, H2.
    apply Rle_trans with (t * c); [apply Rmult_le_compat_l; lra|]. nra. }
  assert (D : (ln t + 1) / l i < M - S0 - c).
  { apply Rmult_lt_reg_r with (l i); [exact Hl|]. unfold Rdiv. rewrite Rmult_assoc, Rinv_l, Rmult_1_r by lra. unfold e in L. lra. }
  lra.
Qed.

(** Potentials relative to a present component are minus infinity for absent
    components; relative to an absent one they are plus infinity for present
    components and undefined for absent ones, itself included.  The pressure of
    an absent solvent is plus infinity. *)
Theorem C99_exchange z s : denotes n z s -> exists ex p,
  exchange_chemical_potentials F (One phi) z = Ok (Single (listed n ex)) /\
  jacobian F (One phi) (Some z) = Ok (Single (listed (n - 1) (fun a => ex (skip s a)))) /\
  pressure F (One phi) z = Ok [p] /\
  (absent phi s = false -> ex s = Fin 0 /\ (exists q, p = Fin q) /\
     forall i, (i < n)%nat -> if absent phi i then ex i = NInf else
       exists v, ex i = Fin v /\ slope (density F) (entries phi) (exchange i s) v) /\
  (absent phi s = true -> ex s = NaN /\ p = PInf /\
     forall i, (i < n)%nat -> ex i = if absent phi i then NaN else PInf).
Proof using WF WL HL HP.
  intros HD. pose proof HD as [Hs _].
  exists (fun i => xsub (if absent phi i then NInf else Fin (g i)) (if absent phi s then NInf else Fin (g s))),
    (xneg (if absent phi s then NInf else Fin (mu s))).
  unfold exchange_chemical_potentials, pressure, chemical_potentials, jacobian. rewrite !checked. cbn [bind each rows_of omap map].
  fold n. rewrite !(axis_index_ok _ _ _ HD). cbn [bind].
  rewrite (listed_ext n (jacobian_at F (entries phi)) (fun i => if absent phi i then NInf else Fin (g i))) by apply jac_value.
  rewrite (listed_ext n (potential_at F (entries phi)) (fun i => if absent phi i then NInf else Fin (mu i))) by apply pot_value.
  rewrite (listed_nth n (fun i => if absent phi i then NInf else Fin (g i)) s) by auto.
  rewrite (listed_nth n (fun i => if absent phi i then NInf else Fin (mu i)) s) by auto.
  rewrite (delete_listed s n) by auto. rewrite !listed_map.
  split; [reflexivity|]. split; [reflexivity|]. split; [reflexivity|]. split.
  - intros HA. rewrite HA. cbn. split; [f_equal; ring|]. split; [eexists; reflexivity|].
    intros i Hi. destruct (absent phi i) eqn:HI; [reflexivity|]. exists (g i - g s). split; [reflexivity|].
    pose proof (absent_case i Hi) as A. rewrite HI in A. pose proof (absent_case s Hs) as B. rewrite HA in B.
    replace (g i - g s) with (rsum n (fun k => exchange i s k * g k)).
    + unfold density. apply fh_slope_supp; [apply WF|apply nonneg_entries; exact HP|apply WF|].
      intros j Hj E. unfold exchange, unit_vec.
      destruct (Nat.eqb_spec j i); [subst; lra|]. destruct (Nat.eqb_spec j s); [subst; lra|]. ring.
    + rewrite (rsum_ext n _ (fun k => unit_vec i k * g k - unit_vec s k * g k)) by (intros; unfold exchange; ring).
      now rewrite rsum_minus, !rsum_unit by auto.
  - intros HA. rewrite HA. split; [reflexivity|]. split; [reflexivity|].
    intros i Hi. destruct (absent phi i); reflexivity.
Qed.

(** The Hessian is plus infinity on the diagonal of absent components and
    finite elsewhere; reduced by an absent component it is infinite everywhere. *)
Theorem C99_hessian z k : denotes n z k -> exists H Hr,
  hessian F (One phi) None = Ok (Single (listed n (fun i => listed n (H i)))) /\
  hessian F (One phi) (Some z) = Ok (Single (listed (n - 1) (fun a => listed (n - 1) (Hr a)))) /\
  (forall i j, (i < n)%nat -> (j < n)%nat ->
     (i = j /\ absent phi i = true /\ H i j = PInf) \/
     (~ (i = j /\ absent phi i = true) /\ exists v, H i j = Fin v)) /\
  (forall a b, (a < n - 1)%nat -> (b < n - 1)%nat ->
     ((absent phi k = true \/ (a = b /\ absent phi (skip k a) = true)) /\ Hr a b = PInf) \/
     (~ (absent phi k = true \/ (a = b /\ absent phi (skip k a) = true)) /\ exists v, Hr a b = Fin v)).
Proof using WF WL HL HP.
  intros HD. pose proof HD as [Hk _].
  set (H := fun i j => if (Nat.eqb i j && absent phi i)%bool then PInf else Fin (fe_chis F i j + if Nat.eqb i j then fe_sizes F i / entries phi i else 0)).
  set (R := fun a b => xadd (xsub (xsub (H (skip k a) (skip k b)) (H k (skip k b))) (H (skip k a) k)) (H k k)).
  exists H, R. unfold hessian. rewrite checked. cbn [bind each]. fold n. rewrite (axis_index_ok _ _ _ HD). cbn [bind].
  unfold hessian_rows. fold n. split.
  { do 2 f_equal. apply listed_ext. intros i Hi. apply listed_ext. intros j Hj. now apply hess_value. }
  split.
  { do 2 f_equal. rewrite listed_map. rewrite delete_listed by auto. apply listed_ext. intros a Ha.
    rewrite delete_listed by auto. apply listed_ext. intros b Hb. unfold R.
    rewrite !hess_value by (auto using skip_lt). reflexivity. }
  split.
  { intros i j Hi Hj. unfold H. destruct (Nat.eqb_spec i j) as [->|N]; cbn [andb].
    - destruct (absent phi j); [left; auto|right]. split; [intros [_ X]; discriminate X|eauto].
    - right. split; [tauto|eauto]. }
  intros a b Ha Hb.
  assert (Hkb : exists v, H k (skip k b) = Fin v).
  { unfold H. destruct (Nat.eqb_spec k (skip k b)) as [E|_]; [destruct (skip_neq k b); auto|]. cbn [andb]. eauto. }
  assert (Hak : exists v, H (skip k a) k = Fin v).
  { unfold H. destruct (Nat.eqb_spec (skip k a) k) as [E|_]; [destruct (skip_neq k a); auto|]. cbn [andb]. eauto. }
  destruct Hkb as [v1 E1], Hak as [v2 E2]. unfold R. rewrite E1, E2.
  assert (Sk : Nat.eqb (skip k a) (skip k b) = Nat.eqb a b).
  { destruct (Nat.eqb_spec a b) as [->|N]; [apply Nat.eqb_refl|]. apply Nat.eqb_neq.
    unfold skip. destruct (Nat.ltb_spec a k), (Nat.ltb_spec b k); lia. }
  unfold H. rewrite Sk, Nat.eqb_refl. cbn [andb].
  destruct (absent phi k) eqn:AK.
  - left. split; [now left|]. destruct (Nat.eqb a b && absent phi (skip k a))%bool; reflexivity.
  - destruct (Nat.eqb_spec a b) as [->|N]; cbn [andb].
    + destruct (absent phi (skip k b)) eqn:AB.
      * left. split; [right; auto|reflexivity].
      * right. split; [intros [X|[_ X]]; discriminate X|]. cbn. eauto.
    + right. split; [intros [X|[X _]]; congruence|]. cbn. eauto.
Qed.
End Values.

(** An absent component can be left out: the energy and the potentials of the
    others are those of the mixture without it. *)
Definition leave_out (k : nat) (F : fe) : fe :=
  {| fe_nc := fe_nc F - 1; fe_chis := fun i j => fe_chis F (skip k i) (skip k j); fe_sizes := fun i => fe_sizes F (skip k i) |}.

Lemma xsum_skip n k f : (k < n)%nat -> f k = Fin 0 -> xsum n f = xsum (n - 1) (fun i => f (skip k i)).
Proof.
  revert k. induction n as [|n IH]; intros k H E; [lia|].
  cbn [xsum]. replace (S n - 1)%nat with n by lia.
  destruct (Nat.eq_dec k n) as [->|Hk].
  - rewrite E, xadd_comm, xadd_0_l. apply xsum_ext. intros i Hi. unfold skip. destruct (Nat.ltb_spec i n); [reflexivity|lia].
  - rewrite (IH k) by (auto; lia). destruct n as [|n]; [lia|]. replace (S n - 1)%nat with n by lia. cbn [xsum].
    replace (skip k n) with (S n) by (unfold skip; destruct (Nat.ltb_spec n k); lia). reflexivity.
Qed.

Theorem C99_leave_out F phi k : wf_fe F -> length phi = fe_nc F -> Forall (fun x => 0 <= x) phi -> (k < fe_nc F)%nat ->
  absent phi k = true -> exists f mu j,
  free_energy_density F (One phi) = Ok (Single f) /\
  free_energy_density (leave_out k F) (One (delete k phi)) = Ok (Single f) /\
  jacobian F (One phi) None = Ok (Single j) /\
  jacobian (leave_out k F) (One (delete k phi)) None = Ok (Single (delete k j)) /\
  chemical_potentials F (One phi) = Ok [mu] /\
  chemical_potentials (leave_out k F) (One (delete k phi)) = Ok [delete k mu].
Proof.
  intros WF HL HP Hk HA. unfold absent in HA. destruct (Req_EM_T (entries phi k) 0) as [A|]; [clear HA|discriminate].
  set (n := fe_nc F) in *. set (G := leave_out k F). set (psi := delete k phi).
  assert (Lp : length psi = (n - 1)%nat) by (unfold psi; rewrite delete_length by lia; now rewrite HL).
  assert (Pp : Forall (fun x => 0 <= x) psi).
  { unfold psi, delete. rewrite Forall_forall in *. intros x Hx. apply HP. apply in_app_or in Hx. destruct Hx as [Hx|Hx].
    - rewrite <- (firstn_skipn k phi). apply in_or_app. now left.
    - rewrite <- (firstn_skipn (S k) phi). apply in_or_app. now right. }
  assert (EP : forall i, entries psi i = entries phi (skip k i)) by (intros i; unfold psi, entries; apply delete_nth; lia).
  assert (CF : check_fractions F (One phi) = Ok tt) by (apply check_ok; [exact HL|repeat constructor; exact HP]).
  assert (CG : check_fractions G (One psi) = Ok tt) by (apply check_ok; [exact Lp|repeat constructor; exact Pp]).
  assert (EJ : forall i, (i < n - 1)%nat -> jacobian_at G (entries psi) i = jacobian_at F (entries phi) (skip k i)).
  { intros i Hi. unfold jacobian_at, int_jacobian, ent_jacobian, G. cbn [leave_out fe_nc fe_chis fe_sizes]. fold n.
    rewrite (rsum_skip n k) by auto. rewrite A, Rmult_0_l, Rplus_0_l, EP. do 2 f_equal. apply rsum_ext. intros j Hj. now rewrite EP. }
  assert (EE : energy_at G (entries psi) = energy_at F (entries phi)).
  { unfold energy_at, int_energy, ent_energy, G. cbn [leave_out fe_nc fe_chis fe_sizes]. fold n. f_equal.
    - do 2 f_equal. rewrite (rsum_skip n k) by auto.
      rewrite (rsum_zero n (fun j => entries phi k * entries phi j * fe_chis F k j)) by (intros; rewrite A; ring).
      rewrite Rplus_0_l. apply rsum_ext. intros i Hi. rewrite (rsum_skip n k) by auto.
      rewrite A. rewrite Rmult_0_r, Rmult_0_l, Rplus_0_l. apply rsum_ext. intros j Hj. now rewrite !EP.
    - assert (Z : xdiv (xlogx (entries phi k)) (fe_sizes F k) = Fin 0).
      { rewrite A. unfold xlogx. destruct (Req_EM_T 0 0); [|congruence]. rewrite xdiv_fin by (apply WF; auto). f_equal. unfold Rdiv. ring. }
      rewrite (xsum_skip n k (fun i => xdiv (xlogx (entries phi i)) (fe_sizes F i)) Hk Z).
      apply xsum_ext. intros i Hi. now rewrite EP. }
  assert (EF : xsum (n - 1) (jacobian_fractions_at G (entries psi)) = xsum n (jacobian_fractions_at F (entries phi))).
  { rewrite (xsum_skip n k (jacobian_fractions_at F (entries phi))); auto.
    - apply xsum_ext. intros i Hi. unfold jacobian_fractions_at, int_jacobian, ent_jacobian_fractions, G.
      cbn [leave_out fe_nc fe_chis fe_sizes]. fold n. rewrite (rsum_skip n k (fun j => entries phi j * fe_chis F j (skip k i))) by auto.
      rewrite A, Rmult_0_l, Rplus_0_l, EP. do 3 f_equal. apply rsum_ext. intros j Hj. now rewrite EP.
    - unfold jacobian_fractions_at, int_jacobian, ent_jacobian_fractions. rewrite A. unfold xlogx.
      destruct (Req_EM_T 0 0); [|congruence]. rewrite !xdiv_fin by (apply WF; auto). cbn. f_equal. unfold Rdiv. ring. }
  assert (EM : forall i, (i < n - 1)%nat -> potential_at G (entries psi) i = potential_at F (entries phi) (skip k i)).
  { intros i Hi. unfold potential_at. rewrite EE, EJ by auto. change (fe_nc G) with (n - 1)%nat. fold n. now rewrite EF. }
  unfold free_energy_density, jacobian, chemical_potentials. rewrite CF, CG. cbn [bind each rows_of].
  exists (energy_at F (entries phi)), (listed n (potential_at F (entries phi))), (listed n (jacobian_at F (entries phi))).
  rewrite EE. change (fe_nc G) with (n - 1)%nat. fold n.
  rewrite !delete_listed by auto. rewrite (listed_ext (n - 1) _ _ EJ), (listed_ext (n - 1) _ _ EM).
  split; [reflexivity|]. split; [reflexivity|]. split; [reflexivity|]. split; [reflexivity|]. split; reflexivity.
Qed.

(** Eigenvalues that are not numbers count as stable: if [eigvalsh] answers an
    infinite matrix with nan, the mixture is reported as stable. *)
Theorem C99_stability (eigvalsh : list (list xr) -> list xr) F c (conserved : bool) m :
  hessian F c (if conserved then Some 0%Z else None) = Ok (Single m) ->
  (is_stable eigvalsh F c conserved = Ok (Single true) <->
   Forall (fun x => x = NaN \/ x = PInf \/ exists a, x = Fin a /\ 0 <= a) (eigvalsh m)) /\
  (is_stable eigvalsh F c conserved = Ok (Single false) <->
   Exists (fun x => x = NInf \/ exists a, x = Fin a /\ a < 0) (eigvalsh m)).
Proof.
  intros H. unfold is_stable, num_unstable_modes. rewrite H. cbn [bind omap].
  set (l := eigvalsh m). clearbody l.
  assert (K : (length (filter xlt0 l) = 0%nat /\ Forall (fun x => x = NaN \/ x = PInf \/ exists a, x = Fin a /\ 0 <= a) l) \/
              (length (filter xlt0 l) <> 0%nat /\ Exists (fun x => x = NInf \/ exists a, x = Fin a /\ a < 0) l)).
  { induction l as [|x l IH]; [left; cbn; auto|]. cbn [filter].
    assert (X : (xlt0 x = true /\ (x = NInf \/ exists a, x = Fin a /\ a < 0)) \/
                (xlt0 x = false /\ (x = NaN \/ x = PInf \/ exists a, x = Fin a /\ 0 <= a))).
    { destruct x as [a| | |]; cbn; [|auto|auto|auto]. destruct (Rltb a 0) eqn:E.
      - apply Rltb_true in E. left. eauto 6.
      - apply Rltb_false in E. right. eauto 8. }
    destruct X as [[-> X]|[-> X]].
    - right. split; [discriminate|]. now left.
    - destruct IH as [[I1 I2]|[I1 I2]]; [left|right]; split; auto. }
  assert (D : Forall (fun x => x = NaN \/ x = PInf \/ exists a, x = Fin a /\ 0 <= a) l ->
              Exists (fun x => x = NInf \/ exists a, x = Fin a /\ a < 0) l -> False).
  { intros A B. apply Exists_exists in B. destruct B as (x & Hx & B). rewrite Forall_forall in A. specialize (A x Hx).
    destruct B as [->|(a & -> & B)]; destruct A as [A|[A|(b & A & C)]]; try discriminate A. injection A as <-. lra. }
  destruct K as [[K1 K2]|[K1 K2]].
  - rewrite K1. cbn. split; split; auto; [discriminate|]. intros B. destruct (D K2 B).
  - destruct (Nat.eqb_spec (length (filter xlt0 l)) 0); [congruence|]. split; split; auto; [discriminate|]. intros A. destruct (D A K2).
Qed.
