(** ProofsHistory.v -- invariants of call histories. *)

From Coq Require Import String Reals Lra Lia List Bool Arith ZArith.
From Verif Require Import Base ModelCommon ModelParts ModelKernel ModelPhases ModelFinder ModelHistory
  ProofsKernel ProofsParts ProofsSteps ProofsCopy ProofsRun.
Import ListNotations.
Open Scope R_scope.

Section History.
Context {G St : Type} (ops : rng_ops G) (no : nat -> cons_obj St).
Implicit Types (f : finder G St) (w : mstate G St).

(** What [run] leaves behind, whatever the outcome. *)
Lemma run_any f a t i f' out :
  run ops f a t i = (f', out) ->
  f' = f \/ exists n w g d, fsteps ops f n = Ok w /\
    f' = with_diag (with_k (advance f (w_k w) (w_count w)) (k_with_g (w_k w) g)) d.
Proof.
  intros H. destruct out as [ph|e].
  - apply run_inv in H. destruct H as (tr & inner & j & w & rep & n & J & phi & g & R).
    right. exists (j * inner)%nat, w, g, (f_diag f'). split; [apply (rf_steps R)|].
    pose proof (rf_f R) as E. rewrite E at 1. rewrite E. reflexivity.
  - apply run_err in H. destruct H as [(_ & ->)|(tr & inner & j & w & _ & _ & E & (g & ->) & _)]; auto.
    right. exists (j * inner)%nat, w, g, (f_diag f). split; [exact E|].
    unfold with_diag, with_k, advance, with_left; simpl. reflexivity.
Qed.

Lemma reinitialize_random_fields f :
  exists (w : mat) g, reinitialize_random ops f = reinit_with f w g.
Proof. unfold reinitialize_random. destruct (draw_normal _ _ _ _ _) as [w g]. eauto. Qed.

(** The configuration that no method changes. *)
Lemma exec_const f c f' out : exec ops no f c = (f', out) ->
  f_par f' = f_par f /\ f_np f' = f_np f /\ f_nc f' = f_nc f /\ f_nf f' = f_nf f /\ f_kwargs f' = f_kwargs f.
Proof.
  destruct c; simpl; intros H.
  - destruct (run _ _ _ _ _) as [f1 r] eqn:E. injection H as <- _. apply run_any in E.
    destruct E as [->|(n & w & g & d & _ & ->)]; repeat split; reflexivity.
  - injection H as <- _. destruct (reinitialize_random_fields f) as (w & g & ->). repeat split; reflexivity.
  - unfold reinitialize_from_omegas in H. destruct (check_field f a); injection H as <- _; repeat split; reflexivity.
  - unfold reinitialize_from_phis in H. destruct (check_field f a); injection H as <- _; repeat split; reflexivity.
  - injection H as <- _; repeat split; reflexivity.
  - injection H as <- _; repeat split; reflexivity.
  - unfold set_interaction in H. destruct (compiled _ _); [destruct (check_inter _ _ _); [destruct reset|]|];
      injection H as <- _; repeat split; reflexivity.
  - unfold set_entropy in H. destruct (compiled _ _); [destruct (check_entropy _ _ _); [destruct reset|]|];
      injection H as <- _; repeat split; reflexivity.
  - unfold set_ensemble in H. destruct (compiled _ _); [destruct (check_ensemble _ _ _); [destruct reset|]|];
      injection H as <- _; repeat split; reflexivity.
  - unfold set_constraints in H. destruct (compile_cons _ _ _ _ _); [destruct (check_cons_all _ _ _); [destruct reset|]|];
      injection H as <- _; repeat split; reflexivity.
Qed.

(* ------------------------------------------------------------------ *)
(** * Reachable finders *)

(** Built-in entropies and ensembles. *)
Definition builtin_entropy (s : entropy) : Prop :=
  (exists nc sizes, s = ig_compiled nc sizes) \/
  (exists nf npf sizes, s = pg_compiled (nsum nf npf) nf npf sizes).
Definition builtin_ensemble (n : ensemble) : Prop :=
  exists nc x, n = can_compiled nc x \/ n = gc_compiled nc x.
Definition builtin f : Prop := builtin_entropy (f_entropy f) /\ builtin_ensemble (f_ensemble f).

Definition is_set (c : call St) : bool :=
  match c with
  | CSetInteraction _ _ _ | CSetEntropy _ _ _ | CSetEnsemble _ _ _ | CSetConstraints _ _ _ _ => true
  | _ => false
  end.

(** Finders obtained by constructing one and calling methods on it in any
    order; runs and reinitialisations may raise, [set_*] calls must not (see
    C22 for what a failed one leaves behind). *)
Inductive history : finder G St -> Prop :=
| hist_create inter ent ens cons np par kw g f :
    create ops no inter ent ens cons np par kw g = Ok f -> builtin f -> history f
| hist_call f c f' out :
    history f -> exec ops no f c = (f', out) -> (is_set c = true -> out = None) ->
    builtin f' -> history f'.

Lemma check_sizes_ok nc nf c r : check_sizes nc nf c r = Ok tt ->
  (forall x, c = Some x -> x = nc) /\ (forall x, r = Some x -> x = nf).
Proof.
  unfold check_sizes. destruct c as [c|], r as [r|]; simpl; intros H;
  repeat match type of H with context [Nat.eqb ?a ?b] => destruct (Nat.eqb_spec a b); simpl in H end;
  try discriminate; split; intros x E; inversion E; congruence.
Qed.

Lemma unit_ok (r : res unit) u : r = Ok u -> r = Ok tt.
Proof. now destruct u. Qed.

(** Sizes agree and some compartment is alive. *)
Definition wf f : Prop :=
  s_comp (f_entropy f) = f_nc f /\ n_comp (f_ensemble f) = f_nc f /\
  exists m, (m < f_np f)%nat /\ m_thr (f_par f) < v_Js (f_k f) m.

Lemma builtin_parts_total f :
  builtin f -> s_comp (f_entropy f) = n_comp (f_ensemble f) -> parts_total (kernel_of f).
Proof.
  intros [HE (nc & x & HN)] HS.
  destruct HE as [(nc' & sizes & HE)|(nf & npf & sizes & HE)]; rewrite HE in HS; simpl in HS.
  - destruct HN as [HN|HN]; rewrite HN in HS; simpl in HS; subst nc'.
    + eapply builtin_total_ig_can; simpl; eauto.
    + eapply builtin_total_ig_gc; simpl; eauto.
  - destruct HN as [HN|HN]; rewrite HN in HS; simpl in HS; subst nc.
    + eapply builtin_total_pg_can; simpl; eauto.
    + eapply builtin_total_pg_gc; simpl; eauto.
Qed.

Definition proper f : Prop :=
  0 <= m_thr (f_par f) < 1 /\ 0 < m_ub (f_par f) /\ (1 <= f_np f)%nat.

Lemma wf_steps f n : builtin f -> proper f -> wf f ->
  exists w, fsteps ops f n = Ok w /\ exists m, (m < f_np f)%nat /\ m_thr (f_par f) < v_Js (w_k w) m.
Proof.
  intros HB (Ht & Hu & Hn) (H1 & H2 & HA). unfold fsteps.
  destruct (steps_total ops (kernel_of f) (f_left f) n (start (f_k f))) as (w & E & H).
  - apply builtin_parts_total; auto. congruence.
  - exact Ht.
  - exact Hu.
  - exact HA.
  - exists w. split; auto.
Qed.

Lemma reinit_wf f (w : mat) g : proper f ->
  s_comp (f_entropy f) = f_nc f -> n_comp (f_ensemble f) = f_nc f -> wf (reinit_with f w g).
Proof.
  intros (Ht & Hu & Hn) H1 H2. split; [exact H1|]. split; [exact H2|].
  exists O. simpl. split; [lia|lra].
Qed.

Lemma create_wf inter ent ens cons np par kw g f :
  create ops no inter ent ens cons np par kw g = Ok f -> proper f -> wf f.
Proof.
  unfold create. intros H HP. apply bind_Ok in H. destruct H as (i & E1 & H).
  apply bind_Ok in H. destruct H as (s & E2 & H). apply bind_Ok in H. destruct H as (n & E3 & H).
  apply bind_Ok in H. destruct H as (cs & E4 & H).
  apply bind_Ok in H. destruct H as (u1 & C1 & H). apply bind_Ok in H. destruct H as (u2 & C2 & H).
  apply bind_Ok in H. destruct H as (u3 & C3 & H). apply bind_Ok in H. destruct H as (u4 & C4 & H).
  apply unit_ok in C3. unfold check_ensemble in C3. apply check_sizes_ok in C3. destruct C3 as [C3 _].
  match type of H with Ok (reinitialize_random _ ?f0) = _ => set (f1 := f0) in * end.
  destruct (reinitialize_random_fields f1) as (w & g' & E). rewrite E in H. injection H as <-.
  apply reinit_wf; auto.
Qed.

Lemma exec_wf f c f' out :
  exec ops no f c = (f', out) -> (is_set c = true -> out = None) ->
  builtin f -> proper f -> wf f -> wf f'.
Proof.
  intros H HS HB HP HW. assert (HW' := HW). destruct HW' as (H1 & H2 & HA).
  destruct c; simpl in H, HS.
  - destruct (run _ _ _ _ _) as [f1 r] eqn:E. injection H as <- _. apply run_any in E.
    destruct E as [->|(n & w & g & d & E & ->)]; [auto|].
    destruct (wf_steps f n HB HP HW) as (w' & E' & HA'). rewrite E in E'. injection E' as <-.
    split; [exact H1|]. split; [exact H2|]. exact HA'.
  - injection H as <- _. destruct (reinitialize_random_fields f) as (w & g & ->). now apply reinit_wf.
  - unfold reinitialize_from_omegas in H. destruct (check_field f a); injection H as <- _; auto. now apply reinit_wf.
  - unfold reinitialize_from_phis in H. destruct (check_field f a); injection H as <- _; auto. now apply reinit_wf.
  - injection H as <- _; auto.
  - injection H as <- _; auto.
  - unfold set_interaction in H.
    destruct (compiled _ _); [destruct (check_inter _ _ _); [destruct reset|]|];
      injection H as <- <-; auto.
  - unfold set_entropy in H.
    destruct (compiled _ _) as [s|]; [destruct (check_entropy _ _ _) eqn:EC; [|]|]; simpl in *; try unfold check_entropy in EC.
    + apply unit_ok in EC. apply check_sizes_ok in EC. destruct EC as [EC _].
      destruct reset; injection H as <- <-; split; simpl; auto.
    + injection H as <- <-. specialize (HS eq_refl). discriminate.
    + injection H as <- <-; auto.
  - unfold set_ensemble in H.
    destruct (compiled _ _) as [s|]; [destruct (check_ensemble _ _ _) eqn:EC; [|]|]; simpl in *; try unfold check_ensemble in EC.
    + apply unit_ok in EC. apply check_sizes_ok in EC. destruct EC as [EC _].
      destruct reset; injection H as <- <-; split; simpl; auto.
    + injection H as <- <-. specialize (HS eq_refl). discriminate.
    + injection H as <- <-; auto.
  - unfold set_constraints in H. destruct (compile_cons _ _ _ _ _); [destruct (check_cons_all _ _ _); [destruct reset|]|];
      injection H as <- <-; auto.
Qed.

Lemma history_wf f : history f -> proper f -> builtin f /\ wf f.
Proof.
  induction 1 as [inter ent ens cons np par kw g f HC HB|f c f' out HH IH HE HS HB]; intros HP.
  - split; auto. eapply create_wf; eauto.
  - split; auto. pose proof (exec_const _ _ _ _ HE) as (E1 & E2 & _).
    assert (HP0 : proper f) by (unfold proper in *; rewrite E1, E2 in HP; exact HP).
    destruct (IH HP0) as [B W]. eapply exec_wf; eauto.
Qed.

(* ------------------------------------------------------------------ *)
(** * Revive budget *)

(** Calls that do not refill the budget. *)
Definition no_reset (c : call St) : bool :=
  match c with
  | CRun _ _ _ | CReinitConstraint => true
  | CSetInteraction _ b _ | CSetEntropy _ b _ | CSetEnsemble _ b _ | CSetConstraints _ b _ _ => negb b
  | _ => false
  end.

Lemma exec_left f c f' out :
  exec ops no f c = (f', out) -> no_reset c = true ->
  (f_left f' <= f_left f)%Z /\ ((f_left f <= 0)%Z -> f_left f' = f_left f) /\
  (Z.min (f_left f) (1 - Z.of_nat (f_np f)) <= f_left f')%Z.
Proof.
  intros H HR. destruct c; simpl in HR; try discriminate; simpl in H;
    try (apply negb_true_iff in HR; subst).
  - destruct (run _ _ _ _ _) as [f1 r] eqn:E. injection H as <- _. apply run_any in E.
    destruct E as [->|(n & w & g & d & E & ->)]; [lia|]. cbn [f_left with_diag with_k advance with_left].
    unfold fsteps in E. apply steps_count in E. simpl in E. lia.
  - injection H as <- _. cbn [f_left with_k reinit_constraint]. lia.
  - unfold set_interaction in H. destruct (compiled _ _); [destruct (check_inter _ _ _)|];
      injection H as <- _; cbn [f_left with_k with_inter with_entropy with_ensemble reinit_constraint]; lia.
  - unfold set_entropy in H. destruct (compiled _ _); [destruct (check_entropy _ _ _)|];
      injection H as <- _; cbn [f_left with_k with_inter with_entropy with_ensemble reinit_constraint]; lia.
  - unfold set_ensemble in H. destruct (compiled _ _); [destruct (check_ensemble _ _ _)|];
      injection H as <- _; cbn [f_left with_k with_inter with_entropy with_ensemble reinit_constraint]; lia.
  - unfold set_constraints in H. destruct (compile_cons _ _ _ _ _); [destruct (check_cons_all _ _ _)|];
      injection H as <- _; cbn [f_left with_k with_inter with_entropy with_ensemble reinit_constraint]; lia.
Qed.

Lemma exec_all_left l : forall f,
  forallb no_reset l = true ->
  let f' := exec_all ops no f l in
  f_np f' = f_np f /\
  (f_left f' <= f_left f)%Z /\ ((f_left f <= 0)%Z -> f_left f' = f_left f) /\
  (Z.min (f_left f) (1 - Z.of_nat (f_np f)) <= f_left f')%Z.
Proof.
  induction l as [|c l IH]; intros f HL; cbn [exec_all forallb] in *; [lia|].
  apply andb_true_iff in HL. destruct HL as [HC HL].
  destruct (exec ops no f c) as [f1 out] eqn:E. cbn [fst].
  pose proof (exec_const _ _ _ _ E) as (_ & E2 & _).
  pose proof (exec_left _ _ _ _ E HC). specialize (IH f1 HL). cbv zeta in IH. lia.
Qed.

End History.
Arguments history {G St} ops no f.
