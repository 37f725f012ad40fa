(** PropertiesSetup.v -- construction, replacement of parts, keyword arguments
    and reinitialisation (C21-C25). *)

From Coq Require Import String Reals Lra Lia List Bool Arith ZArith.
From Verif Require Import Base ModelCommon ModelParts ModelKernel ModelPhases ModelFinder ModelHistory
  ProofsKernel ProofsParts ProofsSteps ProofsCopy ProofsRun ProofsHistory Spec Examples.
Import ListNotations.
Open Scope R_scope.

Section Props.
Context {G St : Type} (ops : rng_ops G) (no : nat -> cons_obj St).
Implicit Types (f : finder G St).

(* ------------------------------------------------------------------ *)
(** ** C21 *)

(** Number of features of a compiled constraint. *)
Definition cfeat (o : cons_obj St) : nat := k_feat (o_class o).

(** All parts of the finder have the finder's sizes. *)
Definition compatible f : Prop :=
  i_feat (f_inter f) = f_nf f /\ s_comp (f_entropy f) = f_nc f /\ s_feat (f_entropy f) = f_nf f /\
  n_comp (f_ensemble f) = f_nc f /\ forall o, In o (v_cons (f_k f)) -> cfeat o = f_nf f.

Lemma check_sizes_cases nc nf c r :
  (check_sizes nc nf c r = Ok tt /\ (forall x, c = Some x -> x = nc) /\ (forall x, r = Some x -> x = nf)) \/
  (check_sizes nc nf c r = Err ComponentNumberError /\ exists x, c = Some x /\ x <> nc) \/
  (check_sizes nc nf c r = Err FeatureNumberError /\ (forall x, c = Some x -> x = nc) /\
     exists x, r = Some x /\ x <> nf).
Proof.
  unfold check_sizes. destruct c as [c|].
  - destruct (Nat.eqb_spec c nc) as [->|N]; simpl; [|right; left; eauto].
    destruct r as [r|].
    + destruct (Nat.eqb_spec r nf) as [->|N].
      * left. repeat split; congruence.
      * right; right. repeat split; eauto; congruence.
    + left. repeat split; congruence.
  - simpl. destruct r as [r|].
    + destruct (Nat.eqb_spec r nf) as [->|N].
      * left. repeat split; congruence.
      * right; right. repeat split; eauto; congruence.
    + left. repeat split; congruence.
Qed.

Lemma check_cons_all_cases nc nf (l : list (cons_obj St)) :
  (check_cons_all nc nf l = Ok tt /\ forall o, In o l -> cfeat o = nf) \/
  (check_cons_all nc nf l = Err FeatureNumberError /\ exists o, In o l /\ cfeat o <> nf).
Proof.
  induction l as [|o l IH]; simpl; [left; split; [auto|easy]|].
  unfold check_cons.
  destruct (check_sizes_cases nc nf None (Some (k_feat (o_class o)))) as [(E & _ & H)|[(_ & x & E & _)|(E & _ & x & H & N)]].
  - rewrite E. simpl. specialize (H _ eq_refl).
    destruct IH as [(-> & I)|(-> & o' & I & N)].
    + left. split; auto. intros o' [<-|I']; auto.
    + right. split; eauto.
  - discriminate.
  - rewrite E. simpl. injection H as <-. right. split; auto. exists o; auto.
Qed.

(** The constructor accepts exactly compatible parts and names the violation. *)
Theorem C21_constructor inter ent ens cons np par kw g i s n cs :
  compiled inter kw = Ok i -> compiled ent kw = Ok s -> compiled ens kw = Ok n ->
  compile_cons no (s_feat s) kw cons IA_none = Ok cs ->
  let r := create ops no inter ent ens cons np par kw g in
  (i_feat i <> s_feat s -> r = Err FeatureNumberError) /\
  (i_feat i = s_feat s -> n_comp n <> s_comp s -> r = Err ComponentNumberError) /\
  (i_feat i = s_feat s -> n_comp n = s_comp s -> (exists o, In o cs /\ cfeat o <> s_feat s) ->
     r = Err FeatureNumberError) /\
  (i_feat i = s_feat s -> n_comp n = s_comp s -> (forall o, In o cs -> cfeat o = s_feat s) ->
     exists f, r = Ok f /\ f_nc f = s_comp s /\ f_nf f = s_feat s /\ compatible f).
Proof.
  intros E1 E2 E3 E4 r. unfold r, create. rewrite E1, E2, E3. cbn [bind]. rewrite E4. cbn [bind].
  unfold check_inter, check_entropy, check_ensemble, check_sizes. cbn [bind].
  rewrite !Nat.eqb_refl. cbn [bind].
  destruct (Nat.eqb_spec (i_feat i) (s_feat s)) as [HI|HI]; cbn [bind];
    [|split; [reflexivity|]; repeat split; congruence].
  split; [congruence|].
  destruct (Nat.eqb_spec (n_comp n) (s_comp s)) as [HN|HN]; cbn [bind];
    [|split; [reflexivity|]; repeat split; congruence].
  split; [congruence|].
  destruct (check_cons_all_cases (s_comp s) (s_feat s) cs) as [(-> & HC)|(-> & o & HO & HC)]; cbn [bind].
  - split.
    + intros _ _ (o & HO & N). now elim N; apply HC.
    + intros _ _ _. eexists. split; [reflexivity|]. unfold reinitialize_random, draw_normal.
      destruct (for_ _ _ _) as [w g']. split; [reflexivity|]. split; [reflexivity|].
      unfold compatible. simpl. repeat split; auto.
      intros o HO. unfold init_cons in HO. apply in_map_iff in HO. destruct HO as (o' & <- & HO).
      unfold cfeat, set_state. simpl. now apply HC.
  - split; [auto|]. intros _ _ H. elim HC. now apply H.
Qed.

(** Every [set_*] accepts exactly the compatible instances. *)
Theorem C21_set_interaction f c reset kw i :
  compiled c (dict_merge (f_kwargs f) kw) = Ok i ->
  snd (set_interaction f c reset kw) = if Nat.eqb (i_feat i) (f_nf f) then Ok tt else Err FeatureNumberError.
Proof.
  intros E. unfold set_interaction. rewrite E. unfold check_inter, check_sizes. simpl.
  destruct (Nat.eqb _ _); [destruct reset|]; reflexivity.
Qed.

Theorem C21_set_entropy f c reset kw s :
  compiled c (dict_merge (f_kwargs f) kw) = Ok s ->
  snd (set_entropy f c reset kw) =
    if Nat.eqb (s_comp s) (f_nc f)
    then if Nat.eqb (s_feat s) (f_nf f) then Ok tt else Err FeatureNumberError
    else Err ComponentNumberError.
Proof.
  intros E. unfold set_entropy. rewrite E. unfold check_entropy, check_sizes. simpl.
  destruct (Nat.eqb _ _); simpl; [destruct (Nat.eqb _ _); [destruct reset|]|]; reflexivity.
Qed.

Theorem C21_set_ensemble f c reset kw n :
  compiled c (dict_merge (f_kwargs f) kw) = Ok n ->
  snd (set_ensemble f c reset kw) = if Nat.eqb (n_comp n) (f_nc f) then Ok tt else Err ComponentNumberError.
Proof.
  intros E. unfold set_ensemble. rewrite E. unfold check_ensemble, check_sizes. simpl.
  destruct (Nat.eqb _ _); simpl; [destruct reset|]; reflexivity.
Qed.

Theorem C21_set_constraints f a reset ind kw cs :
  compile_cons no (f_nf f) (dict_merge (f_kwargs f) kw) a ind = Ok cs ->
  let r := snd (set_constraints no f a reset ind kw) in
  (r = Ok tt <-> forall o, In o cs -> cfeat o = f_nf f) /\
  (r = Err FeatureNumberError <-> exists o, In o cs /\ cfeat o <> f_nf f).
Proof.
  intros E r. unfold r, set_constraints. rewrite E.
  destruct (check_cons_all_cases (f_nc f) (f_nf f) cs) as [(-> & H)|(-> & o & I & H)].
  - destruct reset; simpl; (split; split; auto; [discriminate|]);
      intros (o & I & N); elim N; now apply H.
  - simpl. split; split; auto; [discriminate| |eauto]. intros H'. elim H. now apply H'.
Qed.

Lemma compatible_iff_cons f cs : compatible f ->
  (forall o, In o cs -> cfeat o = f_nf f) -> compatible (with_k f (k_with_cons (f_k f) cs)).
Proof. intros (A & B & C & D & _) H. unfold compatible. simpl. auto. Qed.

Lemma init_cons_feat np l o : In o (init_cons np l) -> exists o', In o' l /\ cfeat o = cfeat o'.
Proof.
  unfold init_cons. intros H. apply in_map_iff in H. destruct H as (o' & <- & H). exists o'. auto.
Qed.

Lemma steps_cfeat q tries n : forall (w w' : mstate G St), steps ops q tries n w = Ok w' ->
  map cfeat (v_cons (w_k w')) = map cfeat (v_cons (w_k w)).
Proof.
  induction n; intros w w' E; [injection E as <-; reflexivity|].
  simpl in E. apply bind_Ok in E. destruct E as (w1 & E1 & E2). rewrite <- (IHn _ _ E1). clear E1 IHn.
  unfold one_step in E2. destruct (maybe_revive _ _ _ _ _) as [c k1] eqn:EM.
  apply bind_Ok in E2. destruct E2 as ([[k' nv] rep] & EI & E2). injection E2 as <-. simpl.
  assert (v_cons k1 = v_cons (w_k w1)) as <-.
  { apply maybe_revive_cases in EM. destruct EM as [(_ & -> & _)|(_ & ? & ? & ? & ? & _ & _ & _ & _ & ->)]; reflexivity. }
  apply iterate_inv in EI. destruct EI as (? & ? & ? & ? & _ & _ & F). rewrite (if_cons F).
  unfold t_evolve, t_cs.
  assert (forall np step masks cs x, map cfeat (fst (evolve_all np step masks x cs)) = map cfeat cs) as HE.
  { intros np step masks cs. induction cs as [|o cs IH]; intros x9; simpl; auto.
    destruct (k_evolve _ _ _ _ _) as [st r]. specialize (IH (Rmax x9 r)).
    destruct (evolve_all _ _ _ _ _). simpl in *. now rewrite IH. }
  rewrite HE. unfold prepare_all. rewrite map_map. reflexivity.
Qed.

(** Along every sequence of successful calls (runs may fail) the parts stay
    compatible. *)
Theorem C21_always_compatible f c f' out :
  compatible f -> exec ops no f c = (f', out) -> (is_set c = true -> out = None) -> compatible f'.
Proof.
  intros HC H HS.
  assert (RW : forall f (w : mat) g, compatible f -> compatible (reinit_with f w g)).
  { intros f0 w g (A & B & C & D & E). unfold compatible. simpl. repeat split; auto.
    intros o I. apply init_cons_feat in I. destruct I as (o' & I & ->). auto. }
  destruct c; simpl in H.
  - destruct (run _ _ _ _ _) as [f1 r] eqn:E. injection H as <- _. apply run_any in E.
    destruct E as [->|(n & w & g & d & E & ->)]; auto.
    destruct HC as (A & B & C & D & HC). unfold compatible. simpl. repeat split; auto.
    apply steps_cfeat in E. simpl in E. intros o I.
    apply (in_map cfeat) in I. rewrite E in I. apply in_map_iff in I. destruct I as (o' & <- & I). auto.
  - injection H as <- _. destruct (reinitialize_random_fields ops f) as (w & g & ->). auto.
  - unfold reinitialize_from_omegas in H. destruct (check_field f a); injection H as <- _; auto.
  - unfold reinitialize_from_phis in H. destruct (check_field f a); injection H as <- _; auto.
  - injection H as <- _. destruct HC as (A & B & C & D & E). unfold compatible; simpl; repeat split; auto.
    intros o I. apply init_cons_feat in I. destruct I as (o' & I & ->). auto.
  - injection H as <- _. exact HC.
  - unfold set_interaction in H. destruct (compiled _ _) as [i|e].
    + destruct (check_inter _ _ _) as [u|e] eqn:E.
      * apply unit_ok in E. unfold check_inter in E. apply check_sizes_ok in E. destruct E as (_ & E). simpl in E. specialize (E _ eq_refl).
        destruct HC as (A & B & C & D & HC). destruct reset; injection H as <- _; unfold compatible; simpl; auto.
      * injection H as <- <-. specialize (HS eq_refl). discriminate.
    + injection H as <- _. exact HC.
  - unfold set_entropy in H. destruct (compiled _ _) as [i|e].
    + destruct (check_entropy _ _ _) as [u|e] eqn:E.
      * apply unit_ok in E. unfold check_entropy in E. apply check_sizes_ok in E. destruct E as (E0 & E). simpl in E, E0.
        specialize (E _ eq_refl). specialize (E0 _ eq_refl).
        destruct HC as (A & B & C & D & HC). destruct reset; injection H as <- _; unfold compatible; simpl; auto.
      * injection H as <- <-. specialize (HS eq_refl). discriminate.
    + injection H as <- _. exact HC.
  - unfold set_ensemble in H. destruct (compiled _ _) as [i|e].
    + destruct (check_ensemble _ _ _) as [u|e] eqn:E.
      * apply unit_ok in E. unfold check_ensemble in E. apply check_sizes_ok in E. destruct E as (E & _). simpl in E. specialize (E _ eq_refl).
        destruct HC as (A & B & C & D & HC). destruct reset; injection H as <- _; unfold compatible; simpl; auto.
      * injection H as <- <-. specialize (HS eq_refl). discriminate.
    + injection H as <- _. exact HC.
  - unfold set_constraints in H. destruct (compile_cons _ _ _ _ _) as [cs|e].
    + destruct (check_cons_all_cases (f_nc f) (f_nf f) cs) as [(E & I)|(E & _)]; rewrite E in H.
      * destruct HC as (A & B & C & D & HC). destruct reset; injection H as <- _; unfold compatible; simpl; repeat split; auto;
        intros o IO; apply init_cons_feat in IO; destruct IO as (o' & IO & ->); auto.
      * injection H as <- <-. specialize (HS eq_refl). discriminate.
    + injection H as <- <-. specialize (HS eq_refl). discriminate.
Qed.

(* ------------------------------------------------------------------ *)
(** ** C22 *)

(** Reinitialisation from an array raises exactly for a wrong shape, and then
    changes nothing. *)
Theorem C22_reinit_atomic f a :
  (nd_shape a = [f_nf f; f_np f] ->
     snd (reinitialize_from_omegas f a) = Ok tt /\ snd (reinitialize_from_phis f a) = Ok tt) /\
  (nd_shape a <> [f_nf f; f_np f] ->
     reinitialize_from_omegas f a = (f, Err ValueError) /\ reinitialize_from_phis f a = (f, Err ValueError)).
Proof.
  unfold reinitialize_from_omegas, reinitialize_from_phis, check_field. split.
  - intros ->. rewrite !Nat.eqb_refl. simpl. auto.
  - intros H. destruct (nd_shape a) as [|r [|m [|x l]]]; auto.
    destruct (Nat.eqb_spec r (f_nf f)) as [->|]; simpl; auto.
    destruct (Nat.eqb_spec m (f_np f)) as [->|]; simpl; auto. congruence.
Qed.

(** What a rejected [set_*] may leave changed: only the part being set. *)
Theorem C22_failed_set_frame f c f' e :
  exec ops no f c = (f', Some e) -> is_set c = true ->
  f_left f' = f_left f /\ f_diag f' = f_diag f /\ f_par f' = f_par f /\ f_kwargs f' = f_kwargs f /\
  v_omegas (f_k f') = v_omegas (f_k f) /\ v_Js (f_k f') = v_Js (f_k f) /\ v_g (f_k f') = v_g (f_k f) /\
  v_phis_comp (f_k f') = v_phis_comp (f_k f) /\ v_phis_feat (f_k f') = v_phis_feat (f_k f) /\
  match c with
  | CSetInteraction _ _ _ => f_entropy f' = f_entropy f /\ f_ensemble f' = f_ensemble f /\ v_cons (f_k f') = v_cons (f_k f)
  | CSetEntropy _ _ _ => f_inter f' = f_inter f /\ f_ensemble f' = f_ensemble f /\ v_cons (f_k f') = v_cons (f_k f)
  | CSetEnsemble _ _ _ => f_inter f' = f_inter f /\ f_entropy f' = f_entropy f /\ v_cons (f_k f') = v_cons (f_k f)
  | _ => f_inter f' = f_inter f /\ f_entropy f' = f_entropy f /\ f_ensemble f' = f_ensemble f
  end.
Proof.
  destruct c; simpl; try discriminate; intros H _.
  - unfold set_interaction in H. destruct (compiled _ _) as [i|]; [destruct (check_inter _ _ _); [destruct reset; discriminate|]|];
    injection H as <- _; simpl; repeat split.
  - unfold set_entropy in H. destruct (compiled _ _) as [i|]; [destruct (check_entropy _ _ _); [destruct reset; discriminate|]|];
    injection H as <- _; simpl; repeat split.
  - unfold set_ensemble in H. destruct (compiled _ _) as [i|]; [destruct (check_ensemble _ _ _); [destruct reset; discriminate|]|];
    injection H as <- _; simpl; repeat split.
  - unfold set_constraints in H. destruct (compile_cons _ _ _ _ _) as [i|]; [destruct (check_cons_all _ _ _); [destruct reset; discriminate|]|];
    injection H as <- _; simpl; repeat split.
Qed.

(** When the constraint at position [k] of a list cannot be compiled, exactly
    the constraints before it are stored, freshly compiled. *)
Lemma prefix_fails base (l1 : list (compilable (cons_obj St))) c l2 os e :
  compiled c (dict_merge base []) = Err e ->
  Forall2 (fun x o => compiled x (dict_merge base []) = Ok o) l1 os ->
  compile_zip base (l1 ++ c :: l2) (repeat [] (length (l1 ++ c :: l2))) = Err e /\
  compile_prefix base (l1 ++ c :: l2) (repeat [] (length (l1 ++ c :: l2))) = os.
Proof.
  intros HC HF. induction HF as [|x o l1 os HX HF IH]; cbn [app length repeat compile_zip compile_prefix].
  - rewrite HC. auto.
  - rewrite HX. cbn [bind]. destruct IH as [-> ->]. auto.
Qed.

Theorem C22_constraints_prefix f l1 c l2 reset kw os e :
  let base := dict_merge (f_kwargs f) kw in
  compiled c (dict_merge base []) = Err e ->
  Forall2 (fun x o => compiled x (dict_merge base []) = Ok o) l1 os ->
  exists f', set_constraints no f (CA_list (l1 ++ c :: l2)) reset IA_none kw = (f', Err e) /\
    v_cons (f_k f') = os.
Proof.
  intros base HC HF. unfold set_constraints. fold base.
  destruct (prefix_fails base l1 c l2 os e HC HF) as [E1 E2].
  assert (E : compile_cons no (f_nf f) base (CA_list (l1 ++ c :: l2)) IA_none = Err e).
  { rewrite <- E1. destruct l1; reflexivity. }
  rewrite E. eexists. split; [reflexivity|]. exact E2.
Qed.

(* ------------------------------------------------------------------ *)
(** ** C24 *)

(** First defined value. *)
Definition first_of (a b : option R) : option R := match a with Some x => Some x | None => b end.
Definition accepts (params : list string) (k : string) : bool := existsb (String.eqb k) params.

Lemma dict_get_app a b k : dict_get (a ++ b) k = first_of (dict_get a k) (dict_get b k).
Proof. induction a as [|[k' v] a IH]; simpl; auto. destruct (String.eqb k k'); auto. Qed.

Lemma filter_get kw params k :
  dict_get (filter_kwargs kw params) k = if accepts params k then dict_get kw k else None.
Proof.
  unfold filter_kwargs, accepts. induction params as [|p ps IH]; simpl; auto.
  rewrite dict_get_app, IH. destruct (String.eqb_spec k p) as [->|N]; simpl.
  - destruct (dict_get kw p) as [v|] eqn:E; simpl; [now rewrite String.eqb_refl|].
    destruct (existsb _ ps); auto.
  - destruct (dict_get kw p); simpl; [|auto]. destruct (String.eqb_spec k p); [congruence|auto].
Qed.

(** [compiled(...)] never complains about unknown keywords: the implementation
    is called with a dict that has exactly the accepted keywords. *)
Theorem C24_filter {A} (c : compilable A) kw : exists d,
  compiled c kw = a_impl c d /\
  forall k, dict_get d k = if accepts (a_params c) k then dict_get kw k else None.
Proof.
  exists (filter_kwargs kw (a_params c)). split; [|intros; apply filter_get].
  unfold compiled, py_call.
  assert (forallb (fun '(k, _) => existsb (String.eqb k) (a_params c)) (filter_kwargs kw (a_params c)) = true) as ->; auto.
  apply forallb_forall. intros [k v] H. unfold filter_kwargs in H. apply in_flat_map in H.
  destruct H as (p & Hp & H). destruct (dict_get kw p); [|easy]. destruct H as [H|[]]. injection H as -> _.
  apply existsb_exists. exists k. split; auto. apply String.eqb_refl.
Qed.

(** Two dicts with the same contents give the same result for an
    implementation that only looks values up. *)
Theorem C24_unknown_ignored {A} (c : compilable A) kw k v :
  (forall d1 d2, (forall k, dict_get d1 k = dict_get d2 k) -> a_impl c d1 = a_impl c d2) ->
  accepts (a_params c) k = false ->
  compiled c ((k, v) :: kw) = compiled c kw.
Proof.
  intros HX HK. destruct (C24_filter c ((k, v) :: kw)) as (d1 & -> & H1).
  destruct (C24_filter c kw) as (d2 & -> & H2). apply HX. intros k0. rewrite H1, H2. simpl.
  destruct (String.eqb_spec k0 k) as [->|]; auto. now rewrite HK.
Qed.

(** In [set_*] the keyword arguments of the call win over the constructor's. *)
Theorem C24_precedence_interaction f c reset kw : exists d,
  (forall k, dict_get d k = if accepts (a_params c) k
                            then first_of (dict_get kw k) (dict_get (f_kwargs f) k) else None) /\
  match a_impl c d with
  | Ok i => f_inter (fst (set_interaction f c reset kw)) = i
  | Err e => set_interaction f c reset kw = (f, Err e)
  end.
Proof.
  destruct (C24_filter c (dict_merge (f_kwargs f) kw)) as (d & E & H). exists d. split.
  - intros k. rewrite H. unfold dict_merge. now rewrite dict_get_app.
  - unfold set_interaction. rewrite E. destruct (a_impl c d); auto.
    destruct (check_inter _ _ _); [destruct reset|]; reflexivity.
Qed.

Theorem C24_precedence_entropy f c reset kw : exists d,
  (forall k, dict_get d k = if accepts (a_params c) k
                            then first_of (dict_get kw k) (dict_get (f_kwargs f) k) else None) /\
  match a_impl c d with
  | Ok i => f_entropy (fst (set_entropy f c reset kw)) = i
  | Err e => set_entropy f c reset kw = (f, Err e)
  end.
Proof.
  destruct (C24_filter c (dict_merge (f_kwargs f) kw)) as (d & E & H). exists d. split.
  - intros k. rewrite H. unfold dict_merge. now rewrite dict_get_app.
  - unfold set_entropy. rewrite E. destruct (a_impl c d); auto.
    destruct (check_entropy _ _ _); [destruct reset|]; reflexivity.
Qed.

Theorem C24_precedence_ensemble f c reset kw : exists d,
  (forall k, dict_get d k = if accepts (a_params c) k
                            then first_of (dict_get kw k) (dict_get (f_kwargs f) k) else None) /\
  match a_impl c d with
  | Ok i => f_ensemble (fst (set_ensemble f c reset kw)) = i
  | Err e => set_ensemble f c reset kw = (f, Err e)
  end.
Proof.
  destruct (C24_filter c (dict_merge (f_kwargs f) kw)) as (d & E & H). exists d. split.
  - intros k. rewrite H. unfold dict_merge. now rewrite dict_get_app.
  - unfold set_ensemble. rewrite E. destruct (a_impl c d); auto.
    destruct (check_ensemble _ _ _); [destruct reset|]; reflexivity.
Qed.

(** Compiled from [c] with individual [ind] over call [kw] over constructor [kw0]. *)
Definition made_from (kw0 kw ind : dict) (c : compilable (cons_obj St)) (o : cons_obj St) : Prop :=
  exists d, a_impl c d = Ok o /\
    forall k, dict_get d k = if accepts (a_params c) k
      then first_of (dict_get ind k) (first_of (dict_get kw k) (dict_get kw0 k)) else None.

Lemma compile_zip_spec kw0 kw : forall l ind cs,
  compile_zip (dict_merge kw0 kw) l ind = Ok cs ->
  length cs = Nat.min (length l) (length ind) /\
  forall j c d, nth_error l j = Some c -> nth_error ind j = Some d ->
    exists o, nth_error cs j = Some o /\ made_from kw0 kw d c o.
Proof.
  induction l as [|c l IH]; intros ind cs H.
  - injection H as <-. split; auto. intros [|j]; discriminate.
  - destruct ind as [|d ind].
    + injection H as <-. split; auto. intros [|j]; discriminate.
    + simpl in H. apply bind_Ok in H. destruct H as (o & E1 & H). apply bind_Ok in H. destruct H as (os & E2 & H).
      injection H as <-. apply IH in E2. destruct E2 as (L & N). simpl. split; [now rewrite L|].
      intros [|j] c' d' Hc Hd; simpl in *; [|eauto].
      injection Hc as <-. injection Hd as <-. exists o. split; auto.
      destruct (C24_filter c (dict_merge (dict_merge kw0 kw) d)) as (d' & E & HD). rewrite E1 in E.
      exists d'. split; auto. intros k. rewrite HD. unfold dict_merge. now rewrite !dict_get_app.
Qed.

(** The stored defaults are those given to the constructor for ever. *)
Theorem C24_defaults_constant f l : f_kwargs (exec_all ops no f l) = f_kwargs f.
Proof.
  revert f. induction l as [|c l IH]; intros f; simpl; auto. rewrite IH.
  destruct (exec ops no f c) as [f' out] eqn:E. apply exec_const in E. simpl. tauto.
Qed.

Theorem C24_constructor_defaults inter ent ens cons np par kw g f :
  create ops no inter ent ens cons np par kw g = Ok f -> f_kwargs f = kw.
Proof.
  unfold create. intros H. repeat (apply bind_Ok in H; destruct H as (? & _ & H)).
  injection H as <-. unfold reinitialize_random. destruct (draw_normal _ _ _ _ _). reflexivity.
Qed.

(* ------------------------------------------------------------------ *)
(** ** C23 *)

(** The installed object is [o] with [initialize(num_part)] applied. *)
Definition installed (np : nat) (o o' : cons_obj St) : Prop :=
  o_class o' = o_class o /\ o_state o' = k_init (o_class o) np (o_state o).

Lemma init_cons_nth np cs j o : nth_error cs j = Some o ->
  exists o', nth_error (init_cons np cs) j = Some o' /\ installed np o o'.
Proof.
  intros H. unfold init_cons. exists (set_state o (k_init (o_class o) np (o_state o))).
  split; [now apply (map_nth_error (fun o => set_state o (k_init (o_class o) np (o_state o))))|]. split; reflexivity.
Qed.

Lemma set_constraints_ok f a reset ind kw f' :
  set_constraints no f a reset ind kw = (f', Ok tt) ->
  exists cs, compile_cons no (f_nf f) (dict_merge (f_kwargs f) kw) a ind = Ok cs /\
    v_cons (f_k f') = init_cons (f_np f) cs /\
    f_left f' = if reset then (m_max_revive (f_par f) * Z.of_nat (f_np f))%Z else f_left f.
Proof.
  unfold set_constraints. intros H. destruct (compile_cons _ _ _ _ _) as [cs|e]; [|discriminate].
  destruct (check_cons_all _ _ _); [|discriminate].
  exists cs. destruct reset; injection H as <-; simpl; auto.
Qed.

(** A list without individual arguments is installed one by one, in order. *)
Theorem C23_list f l reset kw f' :
  l <> [] -> set_constraints no f (CA_list l) reset IA_none kw = (f', Ok tt) ->
  length (v_cons (f_k f')) = length l /\
  forall j c, nth_error l j = Some c ->
    exists o o', nth_error (v_cons (f_k f')) j = Some o' /\ installed (f_np f) o o' /\
                 made_from (f_kwargs f) kw [] c o.
Proof.
  intros HL H. apply set_constraints_ok in H. destruct H as (cs & H & -> & _).
  destruct l as [|c0 l0]; [easy|]. unfold compile_cons in H.
  set (l := c0 :: l0) in *. apply compile_zip_spec in H. destruct H as (L & N).
  rewrite repeat_length, Nat.min_id in L.
  split; [unfold init_cons; now rewrite map_length|].
  intros j c Hc. destruct (N j c [] Hc) as (o & Ho & HM).
  { apply nth_error_repeat. apply nth_error_Some. congruence. }
  destruct (init_cons_nth (f_np f) cs j o Ho) as (o' & Ho' & HI). eauto.
Qed.

(** With individual arguments of the same length likewise. *)
Theorem C23_individual f l ds reset kw f' :
  l <> [] -> length ds = length l ->
  set_constraints no f (CA_list l) reset (IA_list ds) kw = (f', Ok tt) ->
  length (v_cons (f_k f')) = length l /\
  forall j c d, nth_error l j = Some c -> nth_error ds j = Some d ->
    exists o o', nth_error (v_cons (f_k f')) j = Some o' /\ installed (f_np f) o o' /\
                 made_from (f_kwargs f) kw d c o.
Proof.
  intros HL HE H. apply set_constraints_ok in H. destruct H as (cs & H & -> & _).
  destruct l as [|c0 l0]; [easy|]. unfold compile_cons in H.
  set (l := c0 :: l0) in *. apply compile_zip_spec in H. destruct H as (L & N).
  rewrite HE, Nat.min_id in L.
  split; [unfold init_cons; now rewrite map_length|].
  intros j c d Hc Hd. destruct (N j c d Hc Hd) as (o & Ho & HM).
  destruct (init_cons_nth (f_np f) cs j o Ho) as (o' & Ho' & HI). eauto.
Qed.

(** One constraint object. *)
Theorem C23_single f c reset kw f' :
  set_constraints no f (CA_one c) reset IA_none kw = (f', Ok tt) ->
  exists o o', v_cons (f_k f') = [o'] /\ installed (f_np f) o o' /\ made_from (f_kwargs f) kw [] c o.
Proof.
  intros H. apply set_constraints_ok in H. destruct H as (cs & H & -> & _). simpl in H.
  apply bind_Ok in H. destruct H as (o & E & H). injection H as <-.
  exists o, (set_state o (k_init (o_class o) (f_np f) (o_state o))). split; [reflexivity|].
  split; [split; reflexivity|].
  destruct (C24_filter c (dict_merge (f_kwargs f) kw)) as (d & E' & HD). rewrite E in E'.
  exists d. split; auto. intros k. rewrite HD. unfold dict_merge. now rewrite dict_get_app.
Qed.

(** Nothing or an empty list installs exactly the neutral constraint. *)
Theorem C23_empty f a reset ind kw :
  a = CA_none \/ a = CA_list [] -> k_feat (o_class (no (f_nf f))) = f_nf f ->
  exists f' o', set_constraints no f a reset ind kw = (f', Ok tt) /\
    v_cons (f_k f') = [o'] /\ installed (f_np f) (no (f_nf f)) o'.
Proof.
  intros Ha HN. unfold set_constraints.
  assert (compile_cons no (f_nf f) (dict_merge (f_kwargs f) kw) a ind = Ok [no (f_nf f)]) as ->.
  { destruct Ha as [->| ->]; reflexivity. }
  simpl. unfold check_cons, check_sizes. simpl. rewrite HN, Nat.eqb_refl. simpl.
  destruct reset; (do 2 eexists; split; [reflexivity|split; [reflexivity|split; reflexivity]]).
Qed.

(** A shorter list of individual arguments silently drops constraints. *)
Theorem C23_short_individual_drops f l ds reset kw f' :
  l <> [] -> (length ds < length l)%nat ->
  set_constraints no f (CA_list l) reset (IA_list ds) kw = (f', Ok tt) ->
  length (v_cons (f_k f')) = length ds.
Proof.
  intros HL HE H. apply set_constraints_ok in H. destruct H as (cs & H & -> & _).
  destruct l as [|c0 l0]; [easy|]. unfold compile_cons in H.
  set (l := c0 :: l0) in *. apply compile_zip_spec in H. destruct H as (L & _).
  unfold init_cons. rewrite map_length. lia.
Qed.

(* ------------------------------------------------------------------ *)
(** ** C25, first part: the state after a reinitialisation *)

Definition fresh f' f : Prop :=
  (forall m, v_Js (f_k f') m = 1) /\
  f_left f' = (m_max_revive (f_par f) * Z.of_nat (f_np f))%Z /\
  Forall2 (installed (f_np f)) (v_cons (f_k f)) (v_cons (f_k f')).

Lemma reinit_fresh f (w : mat) g : fresh (reinit_with f w g) f.
Proof.
  unfold fresh. simpl. repeat split; auto.
  generalize (v_cons (f_k f)). induction l; simpl; constructor; auto. split; reflexivity.
Qed.

Theorem C25_from_omegas f a f' :
  reinitialize_from_omegas f a = (f', Ok tt) ->
  fresh f' f /\ v_g (f_k f') = v_g (f_k f) /\
  forall r m, (r < f_nf f)%nat -> (m < f_np f)%nat -> v_omegas (f_k f') r m = nd_at a [r; m].
Proof.
  unfold reinitialize_from_omegas, check_field.
  destruct (nd_shape a) as [|r [|m [|x l]]]; try discriminate.
  destruct (_ && _)%bool; [|discriminate]. intros H. injection H as <-.
  split; [apply reinit_fresh|]. split; reflexivity.
Qed.

Theorem C25_from_phis f a f' nf chis shift :
  f_inter f = fh_compiled nf chis shift -> f_nf f = nf ->
  reinitialize_from_phis f a = (f', Ok tt) ->
  fresh f' f /\ v_g (f_k f') = v_g (f_k f) /\
  forall r m, (r < f_nf f)%nat -> (m < f_np f)%nat ->
    v_omegas (f_k f') r m = rsum nf (fun s => chis r s * nd_at a [s; m]).
Proof.
  unfold reinitialize_from_phis, check_field. intros HI HN.
  destruct (nd_shape a) as [|r [|m [|x l]]]; try discriminate.
  destruct (_ && _)%bool; [|discriminate]. intros H. injection H as <-.
  split; [apply reinit_fresh|]. split; [reflexivity|].
  intros r0 m0 _ _. simpl. rewrite HI. reflexivity.
Qed.

(** The k-th (row-major) draw of a fresh sequence of normal numbers. *)
Fixpoint draws (std : R) (g : G) (k : nat) : R :=
  match k with
  | O => fst (g_normal ops g 0 std)
  | S k' => draws std (snd (g_normal ops g 0 std)) k'
  end.
Fixpoint after_draws (std : R) (g : G) (k : nat) : G :=
  match k with
  | O => g
  | S k' => after_draws std (snd (g_normal ops g 0 std)) k'
  end.

Lemma after_draws_S std k : forall g, after_draws std g (S k) = snd (g_normal ops (after_draws std g k) 0 std).
Proof. induction k; intros g; [reflexivity|]. simpl in *. now rewrite IHk. Qed.
Lemma draws_after std k : forall g, draws std g k = fst (g_normal ops (after_draws std g k) 0 std).
Proof. induction k; intros g; [reflexivity|]. simpl. now rewrite IHk. Qed.

Lemma draw_normal_spec nf np std g w g' :
  draw_normal ops nf np std g = (w, g') ->
  g' = after_draws std g (nf * np) /\
  forall r m, (r < nf)%nat -> (m < np)%nat -> w r m = draws std g (r * np + m).
Proof.
  unfold draw_normal. revert w g'. induction nf; intros w g' H.
  - injection H as <- <-. split; [reflexivity|lia].
  - rewrite for_S in H. destruct (for_ nf _ _) as [w0 g0] eqn:E0. destruct (IHnf _ _ eq_refl) as (G0 & W0). clear IHnf E0.
    assert (HI : forall n w1 g1, for_ n (fun m '(w, g) => let '(x, g') := g_normal ops g 0 std in (upd2 w nf m x, g')) (w0, g0) = (w1, g1) ->
      g1 = after_draws std g (nf * np + n) /\ (forall m, (m < n)%nat -> w1 nf m = draws std g (nf * np + m)) /\
      forall r m, (r < nf)%nat -> w1 r m = w0 r m).
    { induction n; intros w1 g1 H1.
      - injection H1 as <- <-. rewrite Nat.add_0_r. repeat split; auto; lia.
      - rewrite for_S in H1. destruct (for_ n _ _) as [w2 g2]. destruct (IHn _ _ eq_refl) as (G2 & W2 & X2).
        destruct (g_normal ops g2 0 std) as [x g3] eqn:EG. injection H1 as <- <-.
        assert (EG' : (x, g3) = g_normal ops (after_draws std g (nf * np + n)) 0 std) by (now rewrite <- G2).
        replace (nf * np + S n)%nat with (S (nf * np + n)) by lia. rewrite after_draws_S, <- EG'.
        split; [reflexivity|]. split.
        + intros m Hm. unfold upd2. rewrite Nat.eqb_refl. simpl. destruct (Nat.eqb_spec m n) as [->|N].
          * rewrite draws_after, <- EG'. reflexivity.
          * apply W2. lia.
        + intros r m Hr. unfold upd2. destruct (Nat.eqb_spec r nf); [lia|]. simpl. auto. }
    destruct (HI _ _ _ H) as (G1 & W1 & X1). split; [rewrite G1; f_equal; lia|].
    intros r m Hr Hm. destruct (Nat.eq_dec r nf) as [->|N]; [now apply W1|].
    rewrite X1 by lia. apply W0; lia.
Qed.

Theorem C25_random f :
  let f' := reinitialize_random ops f in
  let std := m_random_std (f_par f) in
  fresh f' f /\ v_g (f_k f') = after_draws std (v_g (f_k f)) (f_nf f * f_np f) /\
  forall r m, (r < f_nf f)%nat -> (m < f_np f)%nat ->
    v_omegas (f_k f') r m = draws std (v_g (f_k f)) (r * f_np f + m).
Proof.
  unfold reinitialize_random. destruct (draw_normal _ _ _ _ _) as [w g] eqn:E.
  apply draw_normal_spec in E. cbv zeta. split; [apply reinit_fresh|]. exact E.
Qed.

End Props.

(** The multipliers of the linear constraints start at zero. *)
Theorem C25_multipliers_zero np (o o' : cons_obj cstate) p :
  o_class o = local_class p \/ o_class o = global_class p ->
  installed np o o' -> forall a m, c_mult (o_state o') a m = 0.
Proof. intros [E|E] (_ & ->) a m; rewrite E; reflexivity. Qed.
