(** PropertiesSetters.v -- every method of the finder changes what it names and
    nothing else; what the constructor leaves behind (C84); further cases of C23. *)

From Coq Require Import String Reals Lra Lia List Bool Arith ZArith.
From Verif Require Import Base ModelCommon ModelParts ModelKernel ModelPhases ModelFinder ModelHistory
  ProofsKernel ProofsParts ProofsSteps ProofsCopy ProofsRun ProofsHistory Spec Examples PropertiesSetup.
Import ListNotations.
Open Scope R_scope.

Section Setters.
Context {G St : Type} (ops : rng_ops G) (no : nat -> cons_obj St).
Implicit Types (f : finder G St).

(** What a call is about. *)
Definition is_run (c : call St) : bool := match c with CRun _ _ _ => true | _ => false end.
Definition is_reinit (c : call St) : bool :=
  match c with CReinitRandom | CReinitOmegas _ | CReinitPhis _ => true | _ => false end.
Definition sets_inter (c : call St) : bool := match c with CSetInteraction _ _ _ => true | _ => false end.
Definition sets_entropy (c : call St) : bool := match c with CSetEntropy _ _ _ => true | _ => false end.
Definition sets_ensemble (c : call St) : bool := match c with CSetEnsemble _ _ _ => true | _ => false end.
Definition sets_cons (c : call St) : bool := match c with CSetConstraints _ _ _ _ => true | _ => false end.
Definition resets_cons (c : call St) : bool := match c with CReinitConstraint => true | _ => false end.
Definition draws_fields (c : call St) : bool := match c with CReinitRandom => true | _ => false end.

(** Does the call, if it succeeds, refill the revive budget? *)
Definition refills (c : call St) : bool :=
  match c with
  | CReinitRandom | CReinitOmegas _ | CReinitPhis _ | CResetRevive => true
  | CSetInteraction _ b _ | CSetEntropy _ b _ | CSetEnsemble _ b _ | CSetConstraints _ b _ _ => b
  | CRun _ _ _ | CReinitConstraint => false
  end.

Lemma init_cons_class np (l : list (cons_obj St)) : map o_class (init_cons np l) = map o_class l.
Proof. induction l; simpl; [reflexivity|]. f_equal. exact IHl. Qed.

Lemma steps_class q tries n : forall (w w' : mstate G St), steps ops q tries n w = Ok w' ->
  map o_class (v_cons (w_k w')) = map o_class (v_cons (w_k w)).
Proof.
  assert (EV : forall np step masks (l : list (cons_obj St)) wst l' r, evolve_all np step masks wst l = (l', r) ->
    map o_class l' = map o_class l).
  { induction l as [|o l IH]; intros wst l' r H; simpl in H; [injection H as <- _; reflexivity|].
    destruct (k_evolve _ _ _ _ _) as [s x]. destruct (evolve_all _ _ _ _ _) as [l2 w] eqn:E.
    injection H as <- _. simpl. f_equal. eauto. }
  induction n as [|n IH]; intros w w' H; simpl in H; [injection H as <-; reflexivity|].
  destruct (steps ops q tries n w) as [w1|] eqn:E; [|discriminate]. apply IH in E. cbn [bind] in H. rewrite <- E.
  unfold one_step in H. destruct (maybe_revive ops q tries (w_count w1) (w_k w1)) as [c k] eqn:M.
  assert (HM : v_cons k = v_cons (w_k w1)).
  { unfold maybe_revive in M. destruct (Z.ltb _ _); [|injection M as _ <-; reflexivity].
    destruct (Nat.eqb _ _); [injection M as _ <-; reflexivity|].
    destruct (revive_by_random _ _ _ _ _ _ _ _) as [[[? ?] ?] ?]. injection M as _ <-. reflexivity. }
  rewrite <- HM. destruct (iterate q k) as [[[k' nv] rep]|] eqn:I; [|discriminate]. cbn [bind] in H.
  injection H as <-. cbn [w_k]. unfold iterate in I.
  repeat match type of I with
  | bind ?x _ = _ => destruct x as [?|]; [cbn [bind] in I|discriminate]
  | (let '(_, _) := ?x in _) = _ => destruct x eqn:?
  | (if ?b then _ else _) = _ => destruct b; [discriminate|]
  end.
  cbv zeta in I. injection I as <- _ _. cbn [v_cons].
  match goal with H : evolve_all _ _ _ _ _ = _ |- _ => apply EV in H; rewrite H end.
  unfold prepare_all. rewrite map_map. reflexivity.
Qed.

(** No method but the one named after it replaces a part, whatever it returns
    or raises. *)
Theorem C84_frame f c f' out : exec ops no f c = (f', out) ->
  (sets_inter c = false -> f_inter f' = f_inter f) /\
  (sets_entropy c = false -> f_entropy f' = f_entropy f) /\
  (sets_ensemble c = false -> f_ensemble f' = f_ensemble f) /\
  (sets_cons c = false -> map o_class (v_cons (f_k f')) = map o_class (v_cons (f_k f))) /\
  (sets_cons c = false -> resets_cons c = false -> is_run c = false -> is_reinit c = false ->
     v_cons (f_k f') = v_cons (f_k f)) /\
  (is_run c = false -> is_reinit c = false ->
     v_omegas (f_k f') = v_omegas (f_k f) /\ v_Js (f_k f') = v_Js (f_k f)) /\
  (is_run c = false ->
     v_phis_comp (f_k f') = v_phis_comp (f_k f) /\ v_phis_feat (f_k f') = v_phis_feat (f_k f)) /\
  (is_run c = false -> draws_fields c = false -> v_g (f_k f') = v_g (f_k f)) /\
  (is_run c = false -> f_diag f' = f_diag f) /\
  f_par f' = f_par f /\ f_kwargs f' = f_kwargs f /\
  f_nc f' = f_nc f /\ f_nf f' = f_nf f /\ f_np f' = f_np f.
Proof.
  intros H. pose proof (exec_const _ _ _ _ _ _ H) as (K1 & K2 & K3 & K4 & K5).
  assert (Keep : forall f1 : finder G St, f_inter f1 = f_inter f -> f_entropy f1 = f_entropy f ->
    f_ensemble f1 = f_ensemble f -> f_k f1 = f_k f -> f_diag f1 = f_diag f -> f1 = f' ->
    (sets_inter c = false -> f_inter f' = f_inter f) /\
    (sets_entropy c = false -> f_entropy f' = f_entropy f) /\
    (sets_ensemble c = false -> f_ensemble f' = f_ensemble f) /\
    (sets_cons c = false -> map o_class (v_cons (f_k f')) = map o_class (v_cons (f_k f))) /\
    (sets_cons c = false -> resets_cons c = false -> is_run c = false -> is_reinit c = false ->
       v_cons (f_k f') = v_cons (f_k f)) /\
    (is_run c = false -> is_reinit c = false ->
       v_omegas (f_k f') = v_omegas (f_k f) /\ v_Js (f_k f') = v_Js (f_k f)) /\
    (is_run c = false ->
       v_phis_comp (f_k f') = v_phis_comp (f_k f) /\ v_phis_feat (f_k f') = v_phis_feat (f_k f)) /\
    (is_run c = false -> draws_fields c = false -> v_g (f_k f') = v_g (f_k f)) /\
    (is_run c = false -> f_diag f' = f_diag f) /\
    f_par f' = f_par f /\ f_kwargs f' = f_kwargs f /\
    f_nc f' = f_nc f /\ f_nf f' = f_nf f /\ f_np f' = f_np f).
  { intros f1 A1 A2 A3 A4 A5 <-. rewrite A1, A2, A3, A4, A5. repeat split; auto. }
  destruct c; simpl in H.
  - destruct (run _ _ _ _ _) as [f1 r] eqn:E. injection H as <- _. apply run_any in E.
    destruct E as [->|(n & w & g & d & E & ->)]; [apply (Keep f); reflexivity|].
    simpl. repeat split; auto; try discriminate. intros _. unfold fsteps in E. apply steps_class in E. exact E.
  - injection H as <- _. destruct (reinitialize_random_fields ops f) as (w & g & ->). simpl.
    repeat split; auto; try discriminate. intros _. apply init_cons_class.
  - unfold reinitialize_from_omegas in H. destruct (check_field f a); injection H as <- _; [|apply (Keep f); reflexivity].
    simpl. repeat split; auto; try discriminate. intros _. apply init_cons_class.
  - unfold reinitialize_from_phis in H. destruct (check_field f a); injection H as <- _; [|apply (Keep f); reflexivity].
    simpl. repeat split; auto; try discriminate. intros _. apply init_cons_class.
  - injection H as <- _. simpl. repeat split; auto; try discriminate. intros _. apply init_cons_class.
  - injection H as <- _. simpl. repeat split; auto.
  - unfold set_interaction in H. destruct (compiled _ _); [destruct (check_inter _ _ _); [destruct reset|]|];
      injection H as <- _; simpl; repeat split; auto; discriminate.
  - unfold set_entropy in H. destruct (compiled _ _); [destruct (check_entropy _ _ _); [destruct reset|]|];
      injection H as <- _; simpl; repeat split; auto; discriminate.
  - unfold set_ensemble in H. destruct (compiled _ _); [destruct (check_ensemble _ _ _); [destruct reset|]|];
      injection H as <- _; simpl; repeat split; auto; discriminate.
  - unfold set_constraints in H. destruct (compile_cons _ _ _ _ _); [destruct (check_cons_all _ _ _); [destruct reset|]|];
      injection H as <- _; simpl; repeat split; auto; discriminate.
Qed.

(** The budget: full after a successful call that refills it, otherwise untouched
    by everything except [run]. *)
Theorem C84_budget f c f' out : exec ops no f c = (f', out) -> is_run c = false ->
  f_left f' = if refills c && match out with None => true | Some _ => false end
              then (m_max_revive (f_par f) * Z.of_nat (f_np f))%Z else f_left f.
Proof.
  destruct c; simpl; intros H HR; try discriminate.
  - injection H as <- <-. destruct (reinitialize_random_fields ops f) as (w & g & ->). reflexivity.
  - unfold reinitialize_from_omegas in H. destruct (check_field f a); injection H as <- <-; reflexivity.
  - unfold reinitialize_from_phis in H. destruct (check_field f a); injection H as <- <-; reflexivity.
  - injection H as <- <-. reflexivity.
  - injection H as <- <-. reflexivity.
  - unfold set_interaction in H. destruct (compiled _ _); [destruct (check_inter _ _ _); [destruct reset|]|];
      injection H as <- <-; destruct reset || idtac; reflexivity.
  - unfold set_entropy in H. destruct (compiled _ _); [destruct (check_entropy _ _ _); [destruct reset|]|];
      injection H as <- <-; destruct reset || idtac; reflexivity.
  - unfold set_ensemble in H. destruct (compiled _ _); [destruct (check_ensemble _ _ _); [destruct reset|]|];
      injection H as <- <-; destruct reset || idtac; reflexivity.
  - unfold set_constraints in H. destruct (compile_cons _ _ _ _ _); [destruct (check_cons_all _ _ _); [destruct reset|]|];
      injection H as <- <-; destruct reset || idtac; reflexivity.
Qed.

(** The constructor: sizes, parts, parameters and state.  [num_part] is replaced
    by eight times the number of components when it is missing, and also when it
    is 0. *)
Theorem C84_constructor inter ent ens cons np par kw g f :
  create ops no inter ent ens cons np par kw g = Ok f ->
  compiled inter kw = Ok (f_inter f) /\ compiled ent kw = Ok (f_entropy f) /\ compiled ens kw = Ok (f_ensemble f) /\
  f_nc f = s_comp (f_entropy f) /\ f_nf f = s_feat (f_entropy f) /\
  (forall k, (0 < k)%nat -> np = Some k -> f_np f = k) /\
  (np = None \/ np = Some O -> f_np f = (f_nc f * 8)%nat) /\
  f_par f = par /\ f_kwargs f = kw /\ f_diag f = None /\
  f_left f = (m_max_revive par * Z.of_nat (f_np f))%Z /\
  (forall m, v_Js (f_k f) m = 1) /\
  v_g (f_k f) = after_draws ops (m_random_std par) g (f_nf f * f_np f) /\
  (forall r m, (r < f_nf f)%nat -> (m < f_np f)%nat ->
     v_omegas (f_k f) r m = draws ops (m_random_std par) g (r * f_np f + m)) /\
  exists cs, compile_cons no (f_nf f) kw cons IA_none = Ok cs /\
    Forall2 (installed (f_np f)) cs (v_cons (f_k f)).
Proof.
  unfold create. intros H.
  destruct (compiled inter kw) as [i|] eqn:E1; [|discriminate].
  destruct (compiled ent kw) as [s|] eqn:E2; [|discriminate].
  destruct (compiled ens kw) as [n|] eqn:E3; [|discriminate]. cbn [bind] in H.
  destruct (compile_cons no (s_feat s) kw cons IA_none) as [cs|] eqn:E4; [|discriminate]. cbn [bind] in H.
  do 4 (apply bind_Ok in H; destruct H as (? & _ & H)). injection H as H.
  match type of H with reinitialize_random ops ?x = _ => set (f0 := x) in H end.
  pose proof (C25_random ops f0) as (F & R & W). cbv zeta in F, R, W. rewrite H in F, R, W.
  pose proof (exec_const ops no f0 CReinitRandom f None) as C. simpl in C. rewrite H in C.
  destruct (C eq_refl) as (C1 & C2 & C3 & C4 & C5).
  assert (P : f_inter f = i /\ f_entropy f = s /\ f_ensemble f = n /\ f_diag f = None).
  { pose proof (C84_frame f0 CReinitRandom f None) as Q. simpl in Q. rewrite H in Q.
    destruct (Q eq_refl) as (Q1 & Q2 & Q3 & _ & _ & _ & _ & _ & Q4 & _).
    rewrite Q1, Q2, Q3, Q4 by reflexivity. auto. }
  destruct P as (-> & -> & -> & ->). destruct F as (F1 & F2 & F3).
  assert (Np : f_np f = match np with Some (S k) => S k | _ => (s_comp s * 8)%nat end) by exact C2.
  assert (Nc : f_nc f = s_comp s) by exact C3. assert (Nf : f_nf f = s_feat s) by exact C4.
  repeat (split; [reflexivity || assumption|]).
  split; [|split].
  - intros k Lk ->. rewrite Np. destruct k; [lia|reflexivity].
  - intros [->| ->]; rewrite Np, Nc; reflexivity.
  - split; [exact C1|]. split; [exact C5|]. split; [reflexivity|].
    rewrite C2 at 1. split; [exact F2|]. split; [exact F1|].
    rewrite C4, C2. split; [exact R|]. split; [exact W|].
    exists cs. split; [exact E4|exact F3].
Qed.

(** C23: one constraint with individual keyword arguments *)
Theorem C23_single_individual f c d reset kw f' :
  set_constraints no f (CA_one c) reset (IA_dict d) kw = (f', Ok tt) ->
  exists o o', v_cons (f_k f') = [o'] /\ installed (f_np f) o o' /\ made_from (f_kwargs f) kw d c o.
Proof.
  intros H. apply set_constraints_ok in H. destruct H as (cs & H & -> & _). simpl in H.
  apply bind_Ok in H. destruct H as (o & E & H). injection H as <-.
  exists o, (set_state o (k_init (o_class o) (f_np f) (o_state o))). split; [reflexivity|].
  split; [split; reflexivity|].
  destruct (C24_filter c (dict_merge (dict_merge (f_kwargs f) kw) d)) as (d' & E' & HD). rewrite E in E'.
  exists d'. split; auto. intros k. rewrite HD. unfold dict_merge. rewrite !dict_get_app. reflexivity.
Qed.
(** and the constraints given to the constructor *)
Theorem C24_constructor_constraints inter ent ens c np par kw g f :
  create ops no inter ent ens (CA_one c) np par kw g = Ok f ->
  exists o o', v_cons (f_k f) = [o'] /\ installed (f_np f) o o' /\ made_from [] kw [] c o.
Proof.
  intros H. apply C84_constructor in H.
  destruct H as (_ & _ & _ & _ & _ & _ & _ & _ & _ & _ & _ & _ & _ & _ & cs & H & F). simpl in H.
  apply bind_Ok in H. destruct H as (o & E & H). injection H as <-.
  inversion F as [|? o' ? l I F' E1 E2]; subst. inversion F'; subst.
  exists o, o'. split; [auto|split; [exact I|]].
  destruct (C24_filter c kw) as (d & E' & HD). rewrite E in E'. exists d. split; [auto|].
  intros k. rewrite HD. simpl. destruct (dict_get kw k); reflexivity.
Qed.
End Setters.
