(** PropertiesCopies.v -- C82: the number of compartments as such is irrelevant:
    a system in which every compartment occurs [d] times behaves like the system
    with each compartment once. *)

From Coq Require Import String Reals Lra Lia List Bool Arith ZArith.
From Verif Require Import Base ModelCommon ModelParts ModelKernel ModelPhases ModelFinder
  ProofsKernel ProofsParts ProofsSteps ProofsCopy ProofsRun ProofsRelabel Spec PropertiesRelabel
  PropertiesRun ProofsCopies.
Import ListNotations.
Open Scope R_scope.

Section Repeat.
Context {G1 G2 : Type} (ops1 : rng_ops G1) (ops2 : rng_ops G2).

(** Finders of the same mixture with the same parameters; the second has [d]
    copies of every compartment of the first, the copies of [j] are the [m] with
    [sg m = j].  Generators, revive budgets and old fractions are arbitrary. *)
Record repeated d sg (f1 : finder G1 cstate) (f2 : finder G2 cstate) : Prop := {
  re_copies : copies (f_np f1) (f_np f2) d sg;
  re_inter : f_inter f1 = f_inter f2; re_entropy : f_entropy f1 = f_entropy f2; re_ensemble : f_ensemble f1 = f_ensemble f2;
  re_nc : f_nc f1 = f_nc f2; re_nf : f_nf f1 = f_nf f2; re_par : f_par f1 = f_par f2;
  re_omegas : forall r m, (r < f_nf f1)%nat -> (m < f_np f2)%nat -> v_omegas (f_k f2) r m = v_omegas (f_k f1) r (sg m);
  re_Js : forall m, (m < f_np f2)%nat -> v_Js (f_k f2) m = v_Js (f_k f1) (sg m);
  re_cons : Forall2 (crep (f_nf f1) (f_np f2) d sg) (v_cons (f_k f1)) (v_cons (f_k f2))
}.

(** No revival takes place: no budget, or no compartment of the first finder
    ever falls below the threshold. *)
Definition undisturbed (f1 : finder G1 cstate) (f2 : finder G2 cstate) : Prop :=
  (f_left f1 <= 0)%Z /\ (f_left f2 <= 0)%Z \/
  forall j w, fsteps ops1 f1 j = Ok w -> forall m, (m < f_np f1)%nat -> m_thr (f_par f1) < v_Js (w_k w) m.

Lemma repeated_kernel d sg f1 f2 : repeated d sg f1 f2 ->
  recopied (f_nf f1) (f_np f1) (f_np f2) (kernel_of f1) (kernel_of f2).
Proof.
  intros R. pose proof (re_par _ _ _ _ R) as E. split; cbn; try rewrite E; auto; try apply R. symmetry. apply R.
Qed.

Lemma repeated_state d sg f1 f2 : repeated d sg f1 f2 -> krep (f_nf f1) (f_np f2) d sg (f_k f1) (f_k f2).
Proof.
  intros R. split; [|split].
  - intros r m Hr Hm. symmetry. now apply R.
  - intros m Hm. symmetry. now apply R.
  - apply R.
Qed.

Lemma repeated_advance d sg f1 f2 k1 k2 l1 l2 : repeated d sg f1 f2 -> krep (f_nf f1) (f_np f2) d sg k1 k2 ->
  repeated d sg (with_left (with_k f1 k1) l1) (with_left (with_k f2 k2) l2).
Proof.
  intros R (K1 & K2 & K3). split; cbn; try apply R; auto.
  - intros r m Hr Hm. symmetry. now apply K1.
  - intros m Hm. symmetry. now apply K2.
Qed.

Lemma fsteps_copy d sg f1 f2 n : classic (f_nc f1) (kernel_of f1) -> repeated d sg f1 f2 -> undisturbed f1 f2 ->
  match fsteps ops1 f1 n, fsteps ops2 f2 n with
  | Ok w1, Ok w2 => mrep (f_nc f1) (f_nf f1) (f_np f2) d sg w1 w2
  | Err e1, Err e2 => e1 = e2
  | _, _ => False
  end.
Proof.
  intros HC R HU. unfold fsteps.
  apply (steps_copy (f_nc f1) (f_nf f1) (f_np f1) (f_np f2) d sg (re_copies _ _ _ _ R) (kernel_of f1) (kernel_of f2) HC (repeated_kernel _ _ _ _ R)).
  - split; [now apply repeated_state|]. cbn. repeat split; auto; try lia. congruence.
  - intros j w Hj E. destruct HU as [HU|HU]; [left; exact HU|]. right. intros m Hm. cbn. apply (HU j w); auto.
Qed.

Lemma undisturbed_advance f1 f2 n w1 l2 k2 : undisturbed f1 f2 -> fsteps ops1 f1 n = Ok w1 -> (l2 <= f_left f2)%Z ->
  undisturbed (advance f1 (w_k w1) (w_count w1)) (with_left (with_k f2 k2) l2).
Proof.
  intros [(U1 & U2)|U] E HL; [left; cbn; split; lia|]. right. intros j w Ej m Hm. cbn [advance f_par f_np with_left with_k] in *.
  destruct j as [|j].
  - injection Ej as <-. cbn. apply (U n w1 E); auto.
  - pose proof (fsteps_split ops1 f1 n j w1 E) as X. rewrite Ej in X. exact (U _ _ X m Hm).
Qed.

(** Any number of steps: same errors, copies of the same fields, volumes and
    fractions, or the same exception. *)
Theorem C82_steps d sg f1 f2 n : classic (f_nc f1) (kernel_of f1) -> repeated d sg f1 f2 -> undisturbed f1 f2 ->
  match fsteps ops1 f1 n, fsteps ops2 f2 n with
  | Ok w1, Ok w2 =>
      w_rep w2 = w_rep w1 /\ w_valid w2 = (Z.of_nat d * w_valid w1)%Z /\
      (forall r m, (r < f_nf f1)%nat -> (m < f_np f2)%nat -> v_omegas (w_k w2) r m = v_omegas (w_k w1) r (sg m)) /\
      (forall m, (m < f_np f2)%nat -> v_Js (w_k w2) m = v_Js (w_k w1) (sg m)) /\
      ((1 <= n)%nat -> forall i m, (i < f_nc f1)%nat -> (m < f_np f2)%nat ->
         v_phis_comp (w_k w2) i m = v_phis_comp (w_k w1) i (sg m))
  | Err e1, Err e2 => e1 = e2
  | _, _ => False
  end.
Proof.
  intros HC R HU. pose proof (fsteps_copy d sg f1 f2 n HC R HU) as X.
  destruct (fsteps ops1 f1 n) as [w1|e1] eqn:E1, (fsteps ops2 f2 n) as [w2|e2]; try contradiction; [|exact X].
  destruct X as ((K1 & K2 & _) & _ & V & RP & P). repeat split; auto.
  - intros r m Hr Hm. symmetry. now apply K1.
  - intros m Hm. symmetry. now apply K2.
  - intros Hn i m Hi Hm. symmetry. apply P; auto. destruct n as [|n]; [lia|]. exact (steps_rep _ _ _ _ _ _ E1).
Qed.

Lemma run_loop_copy d sg tol b n : forall s1 s2,
  classic (f_nc (r_f s1)) (kernel_of (r_f s1)) -> repeated d sg (r_f s1) (r_f s2) -> undisturbed (r_f s1) (r_f s2) ->
  r_steps s1 = r_steps s2 -> r_rep s1 = r_rep s2 ->
  (r_rep s1 <> None -> cmat (f_np (r_f s2)) sg (f_nc (r_f s1)) (v_phis_comp (f_k (r_f s1))) (v_phis_comp (f_k (r_f s2)))) ->
  match run_loop ops1 tol (S b) n s1, run_loop ops2 tol (S b) n s2 with
  | (s1', Ok _), (s2', Ok _) =>
      repeated d sg (r_f s1') (r_f s2') /\ r_steps s1' = r_steps s2' /\ r_rep s1' = r_rep s2' /\
      (r_rep s1' <> None -> cmat (f_np (r_f s2')) sg (f_nc (r_f s1')) (v_phis_comp (f_k (r_f s1'))) (v_phis_comp (f_k (r_f s2')))) /\
      f_np (r_f s1') = f_np (r_f s1) /\ f_np (r_f s2') = f_np (r_f s2) /\ f_nc (r_f s1') = f_nc (r_f s1) /\
      f_par (r_f s1') = f_par (r_f s1)
  | (_, Err e1), (_, Err e2) => e1 = e2
  | _, _ => False
  end.
Proof.
  induction n as [|n IH]; intros s1 s2 HC R HU HS HRp HP; cbn [run_loop].
  - repeat split; auto; apply R.
  - unfold metastep. fold (start (f_k (r_f s1))). fold (start (f_k (r_f s2))).
    fold (fsteps ops1 (r_f s1) (S b)). fold (fsteps ops2 (r_f s2) (S b)).
    pose proof (fsteps_copy d sg _ _ (S b) HC R HU) as X.
    destruct (fsteps ops1 (r_f s1) (S b)) as [w1|e1] eqn:E1, (fsteps ops2 (r_f s2) (S b)) as [w2|e2]; try contradiction; cbn [bind]; [|exact X].
    destruct X as (K & C & V & RP & P). destruct (steps_S_rep _ _ _ _ _ _ E1) as (rep & ER). rewrite <- RP, ER, <- C.
    pose proof (krep_count (f_nf (r_f s1)) (f_np (r_f s1)) (f_np (r_f s2)) d sg (re_copies _ _ _ _ R) _ _ (repeated_kernel _ _ _ _ R) _ _ K) as CV.
    cbn [q_np q_thr kernel_of] in CV. cbn [q_np q_thr kernel_of]. rewrite CV, V.
    assert (ES : Z.eqb (Z.of_nat d * w_valid w1) (Z.of_nat (d * count_valid (f_np (r_f s1)) (v_Js (w_k w1)) (m_thr (f_par (r_f s1))))) =
                 Z.eqb (w_valid w1) (Z.of_nat (count_valid (f_np (r_f s1)) (v_Js (w_k w1)) (m_thr (f_par (r_f s1)))))).
    { pose proof (co_d _ _ _ _ (re_copies _ _ _ _ R)). rewrite Nat2Z.inj_mul.
      destruct (Z.eqb_spec (w_valid w1) (Z.of_nat (count_valid (f_np (r_f s1)) (v_Js (w_k w1)) (m_thr (f_par (r_f s1)))))) as [->|N].
      - apply Z.eqb_refl.
      - apply Z.eqb_neq. intros E. apply N. apply Z.mul_reg_l in E; auto. lia. }
    rewrite ES, <- (re_par _ _ _ _ R), <- HS.
    assert (R' : repeated d sg (with_left (with_k (r_f s1) (w_k w1)) (f_left (r_f s1) - Z.of_nat (w_count w1))%Z)
                               (with_left (with_k (r_f s2) (w_k w2)) (f_left (r_f s2) - Z.of_nat (w_count w1))%Z))
      by now apply repeated_advance.
    assert (P' : cmat (f_np (r_f s2)) sg (f_nc (r_f s1)) (v_phis_comp (w_k w1)) (v_phis_comp (w_k w2))) by (apply P; congruence).
    destruct (String.eqb _ _); [|reflexivity]. destruct (converged _ _ _).
    + cbn [r_f r_steps r_rep]. repeat split; auto; apply R'.
    + match goal with |- context [run_loop ops1 tol (S b) n ?x] => match goal with |- context [run_loop ops2 tol (S b) n ?y] =>
        pose proof (IH x y) as Y end end.
      cbn [r_f r_steps r_rep r_conv] in Y. apply Y; auto. apply (undisturbed_advance _ _ (S b) w1); auto. lia.
Qed.

(** A run: same diagnostics, and phases that are copies of each other in the
    same order, if no compartment is dead at the end. *)
Theorem C82_run d sg f1 f2 a t i f1' ph1 : classic (f_nc f1) (kernel_of f1) -> repeated d sg f1 f2 -> undisturbed f1 f2 ->
  0 <= m_thr (f_par f1) ->
  run ops1 f1 a t i = (f1', Ok ph1) -> (forall m, (m < f_np f1)%nat -> m_thr (f_par f1) < v_Js (f_k f1') m) ->
  exists f2' ph2 d1 d2, run ops2 f2 a t i = (f2', Ok ph2) /\ repeated d sg f1' f2' /\
    (forall m, (m < f_np f2)%nat -> nth m (p_vol ph2) 0 = nth (sg m) (p_vol ph1) 0) /\
    (forall m b, (m < f_np f2)%nat -> (b < f_nc f1)%nat -> frac ph2 m b = frac ph1 (sg m) b) /\
    f_diag f1' = Some d1 /\ f_diag f2' = Some d2 /\ d_steps d2 = d_steps d1 /\ d_incomp d2 = d_incomp d1 /\
    d_omega d2 = d_omega d1 /\ d_Js d2 = d_Js d1 /\ d_cons d2 = d_cons d1.
Proof.
  intros HC R HU Ht H HA. unfold run in *. rewrite <- (re_par _ _ _ _ R).
  destruct (schedule _ _) as [[tr inner]|e] eqn:ES; [|discriminate].
  destruct (schedule_inner _ _ _ _ ES) as (b & ->).
  set (tol := match t with Some _ => _ | None => _ end) in *. clearbody tol.
  pose proof (run_loop_copy d sg tol b tr {| r_f := f1; r_steps := O; r_rep := None; r_conv := false |}
    {| r_f := f2; r_steps := O; r_rep := None; r_conv := false |} HC R HU eq_refl eq_refl ltac:(cbn; congruence)) as X.
  destruct (run_loop ops1 tol (S b) tr _) as [s1 [u|e]]; [|discriminate].
  destruct (run_loop ops2 tol (S b) tr _) as [s2 [u2|e]]; [|contradiction].
  destruct X as (R' & HS & HRp & HP & N1 & N2 & NC & NP). cbn [r_f] in N1, N2, NC, NP.
  destruct (revive_by_copy ops1 _ _ _ _ _) as [[[[n J] phi] h]|e] eqn:ER; [|discriminate].
  destruct (r_rep s1) as [rep|] eqn:ERp; [|discriminate].
  injection H as <- EP. cbn [f_k with_diag with_k k_with_g v_Js] in HA.
  rewrite revive_by_copy_none in ER; [|now rewrite NP|rewrite N1, NP; exact HA].
  injection ER as <- <- <- <-. specialize (HP ltac:(discriminate)).
  rewrite revive_by_copy_none.
  - rewrite <- HRp. cbn [f_nc f_np with_k] in *.
    assert (exists ph2, result_phases (f_nc (r_f s2)) (f_np (r_f s2)) (v_Js (f_k (r_f s2))) (v_phis_comp (f_k (r_f s2))) = Ok ph2) as (ph2 & EP2).
    { unfold result_phases, mk_phases. simpl. rewrite Nat.eqb_refl. eauto. }
    eexists _, ph2, _, _. split; [rewrite <- EP2; reflexivity|].
    apply result_phases_ok in EP, EP2. destruct EP as (V1 & V2 & _), EP2 as (W1 & W2 & _).
    split; [|split; [|split]].
    + split; cbn; apply R'.
    + intros m Hm. rewrite V1, W1. rewrite <- N2 in Hm.
      rewrite !nth_map_seq by (auto; apply (co_in _ _ _ _ (re_copies _ _ _ _ R')); auto). now apply R'.
    + intros m c Hm Hc. unfold frac. rewrite V2, W2. rewrite <- N2 in Hm. rewrite <- NC in Hc.
      pose proof (co_in _ _ _ _ (re_copies _ _ _ _ R') m Hm) as Hs. pose proof Hc as Hc2. rewrite (re_nc _ _ _ _ R') in Hc2.
      rewrite (nth_map_seq _ _ m) by auto. rewrite (nth_map_seq _ _ c) by auto. rewrite (nth_map_seq _ _ (sg m)) by auto.
      rewrite (nth_map_seq _ _ c) by auto. symmetry. exact (HP c m Hc Hm).
    + cbn [f_diag with_diag]. split; [reflexivity|]. split; [reflexivity|]. cbn. rewrite HS. auto.
  - rewrite <- (re_par _ _ _ _ R'), NP. exact Ht.
  - intros m Hm. rewrite (re_Js _ _ _ _ R') by auto. rewrite <- (re_par _ _ _ _ R'), NP. apply HA.
    rewrite <- N1. apply (co_in _ _ _ _ (re_copies _ _ _ _ R')); auto.
Qed.

(** How to get there: [reinitialize_from_omegas] with columns repeated. *)
Inductive same_class nf d : cons_class cstate -> cons_class cstate -> Prop :=
| sc_local p1 p2 : same_lin nf 1 p1 p2 -> same_class nf d (local_class p1) (local_class p2)
| sc_global p1 p2 : same_lin nf (INR d) p1 p2 -> same_class nf d (global_class p1) (global_class p2)
| sc_no n1 n2 : same_class nf d (no_class n1) (no_class n2).

Theorem C82_from_omegas d sg f1 f2 x1 x2 f1' f2' : copies (f_np f1) (f_np f2) d sg ->
  f_inter f1 = f_inter f2 -> f_entropy f1 = f_entropy f2 -> f_ensemble f1 = f_ensemble f2 ->
  f_nc f1 = f_nc f2 -> f_nf f1 = f_nf f2 -> f_par f1 = f_par f2 ->
  Forall2 (same_class (f_nf f1) d) (map o_class (v_cons (f_k f1))) (map o_class (v_cons (f_k f2))) ->
  (forall r m, (r < f_nf f1)%nat -> (m < f_np f2)%nat -> nd_at x2 [r; m] = nd_at x1 [r; sg m]) ->
  reinitialize_from_omegas f1 x1 = (f1', Ok tt) -> reinitialize_from_omegas f2 x2 = (f2', Ok tt) ->
  repeated d sg f1' f2'.
Proof.
  intros HS E1 E2 E3 E4 E5 E6 HF HX H1 H2. unfold reinitialize_from_omegas in *.
  assert (CF : forall {G} (f : finder G cstate) x w, check_field f x = Ok w -> forall r m, w r m = nd_at x [r; m]).
  { intros G f x w H r m. unfold check_field in H. destruct (nd_shape x) as [|? [|? [|? ?]]]; try discriminate.
    destruct (_ && _)%bool; [|discriminate]. now injection H as <-. }
  destruct (check_field f1 x1) as [w1|e] eqn:C1; [|discriminate]. destruct (check_field f2 x2) as [w2|e] eqn:C2; [|discriminate].
  pose proof (CF _ _ _ _ C1) as D1. pose proof (CF _ _ _ _ C2) as D2.
  injection H1 as <-. injection H2 as <-. split; cbn; auto.
  - intros r m Hr Hm. rewrite D1, D2. auto.
  - unfold init_cons. clear - HF. revert HF. generalize (v_cons (f_k f2)). induction (v_cons (f_k f1)) as [|o1 l1 IH]; intros [|o2 l2] HF;
      cbn [map] in *; inversion HF as [|x y X Y HO HL Z1 Z2]; subst; constructor; [|now apply IH].
    clear - HO. destruct o1 as [c1 s1], o2 as [c2 s2]. cbn in HO |- *. unfold set_state. cbn. destruct HO.
    + apply crep_local; auto.
    + apply crep_global; auto.
    + apply crep_no; cbn; [intros r m _ _; reflexivity|intros m _; reflexivity].
Qed.
End Repeat.
