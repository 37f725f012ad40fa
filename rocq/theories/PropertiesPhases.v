(** PropertiesPhases.v -- C26-C32: the containers of phases. *)

From Coq Require Import String Reals Lra Lia List Bool Arith ZArith Permutation Sorted.
From Verif Require Import Base ModelCommon ModelKernel ModelPhases ProofsPhases.
Import ListNotations.
Open Scope R_scope.

(* ------------------------------------------------------------------ *)
(** * C26 -- shapes *)

(** one composition of [p_nc] entries per volume *)
Definition shaped (p : phases) : Prop :=
  length (p_vol p) = length (p_frac p) /\ Forall (fun row => length row = p_nc p) (p_frac p).

Definition fitting (v f : nd) (n c : nat) : Prop := nd_shape v = [n] /\ nd_shape f = [n; c].

(** The constructor succeeds exactly on fitting arrays, stores their entries,
    and raises ValueError on all other pairs of arrays. *)
Theorem C26_constructor v f :
  (forall n c, fitting v f n c -> exists p, mk_phases v f = Ok p /\ shaped p /\
     num_phases p = n /\ p_nc p = c /\
     (forall k, (k < n)%nat -> nth k (p_vol p) 0 = nd_at v [k]) /\
     (forall k i, (k < n)%nat -> (i < c)%nat -> nth i (nth k (p_frac p) []) 0 = nd_at f [k; i])) /\
  ((~ exists n c, fitting v f n c) -> mk_phases v f = Err ValueError).
Proof.
  unfold fitting, mk_phases. split.
  - intros n c [-> ->]. rewrite Nat.eqb_refl. eexists. split; [reflexivity|].
    unfold shaped, num_phases. cbn [p_vol p_frac p_nc]. rewrite !map_length, !seq_length.
    split; [split; [reflexivity|]|split; [reflexivity|split; [reflexivity|split]]].
    + apply Forall_forall. intros row Hr. apply in_map_iff in Hr. destruct Hr as (k & <- & _).
      now rewrite map_length, seq_length.
    + intros k Hk. rewrite (nth_map_in _ _ _ O) by now rewrite seq_length. now rewrite seq_nth.
    + intros k i Hk Hi. rewrite (nth_map_in _ _ k O) by now rewrite seq_length.
      rewrite (nth_map_in _ _ i O) by now rewrite seq_length. now rewrite !seq_nth.
  - intros H. destruct (nd_shape v) as [|nv [|? ?]] eqn:Ev; auto.
    destruct (nd_shape f) as [|nf [|nc [|? ?]]] eqn:Ef; auto.
    destruct (Nat.eqb_spec nv nf) as [<-|]; auto. exfalso. apply H. now exists nv, nc.
Qed.

Lemma ph_copy_eq vol rows nc : length vol = length rows -> Forall (fun row => length row = nc) rows ->
  ph_copy vol rows nc = Ok {| p_vol := vol; p_frac := rows; p_nc := nc |}.
Proof.
  intros HL HF. unfold ph_copy, mk_phases, nd_of_vec, nd_of_rows. cbn [nd_shape nd_at].
  rewrite HL, Nat.eqb_refl. f_equal. f_equal.
  - rewrite <- HL. apply map_nth_seq.
  - rewrite <- (map_nth_seq [] rows) at 2. apply map_ext_in. intros k Hk. apply in_seq in Hk.
    rewrite Forall_forall in HF. rewrite <- (HF (nth k rows [])) by (apply nth_In; lia). apply map_nth_seq.
Qed.

Lemma ph_copy_inv vol rows nc q : ph_copy vol rows nc = Ok q -> shaped q /\ p_nc q = nc.
Proof.
  intros H. unfold ph_copy, mk_phases, nd_of_vec, nd_of_rows in H. cbn [nd_shape nd_at] in H.
  destruct (Nat.eqb _ _); [|discriminate H]. injection H as <-. unfold shaped. cbn.
  rewrite !map_length, seq_length. split; [split; [reflexivity|]|reflexivity].
  apply Forall_forall. intros row Hr. apply in_map_iff in Hr. destruct Hr as (k & <- & _).
  now rewrite map_length, seq_length.
Qed.

(** the operations on phases; every call may meet its own tie-breaking and its
    own clustering *)
Inductive op :=
| Normalize
| Sort (argsort : list R -> list nat)
| Clusters (fcluster : list (list R) -> list nat).

Definition do_op (o : op) (p : phases) : res phases :=
  match o with
  | Normalize => ph_normalize p
  | Sort a => ph_sort a p
  | Clusters c => get_clusters c p
  end.

Fixpoint do_ops (os : list op) (p : phases) : res phases :=
  match os with [] => Ok p | o :: os' => let* q := do_op o p in do_ops os' q end.

Theorem C26_operations os p q : shaped p -> do_ops os p = Ok q -> shaped q /\ p_nc q = p_nc p.
Proof.
  revert p. induction os as [|o os IH]; intros p HP H; cbn [do_ops] in H.
  - injection H as <-. auto.
  - destruct (do_op o p) as [r|e] eqn:E; [|discriminate H]. cbn [bind] in H.
    assert (Hr : shaped r /\ p_nc r = p_nc p).
    { destruct o as [|a|c]; cbn [do_op] in E.
      - unfold ph_normalize in E. now apply ph_copy_inv in E.
      - unfold ph_sort in E. destruct (Nat.eqb _ _); [discriminate E|]. now apply ph_copy_inv in E.
      - unfold get_clusters in E. destruct (Nat.ltb _ _); [injection E as <-; auto|].
        destruct (collect _ _ _) as [[vs fs]|]; [|discriminate E]. cbn [bind] in E. now apply ph_copy_inv in E. }
    destruct Hr as [Hr1 Hr2]. destruct (IH r Hr1 H) as [H1 H2]. split; congruence.
Qed.

(* ------------------------------------------------------------------ *)
(** * C27 -- normalize *)

Theorem C27_normalize p : shaped p -> total_volume p <> 0 ->
  exists q, ph_normalize p = Ok q /\ shaped q /\
    total_volume q = 1 /\
    p_frac q = p_frac p /\ p_nc q = p_nc p /\ num_phases q = num_phases p /\
    (forall i, mean_fraction q i = mean_fraction p i) /\
    (forall a b, nth a (p_vol q) 0 * nth b (p_vol p) 0 = nth b (p_vol q) 0 * nth a (p_vol p) 0) /\
    (forall a, nth a (p_vol q) 0 = nth a (p_vol p) 0 / total_volume p) /\
    ph_normalize q = Ok q.
Proof.
  intros [HL HF] HT. unfold ph_normalize at 1. rewrite ph_copy_eq; [|now rewrite map_length|auto].
  eexists. split; [reflexivity|]. set (q := {| p_vol := _ |}).
  assert (Tq : total_volume q = 1).
  { change (lsum (map (fun v => v / total_volume p) (p_vol p)) (fun v => v) = 1). rewrite lsum_map. unfold Rdiv. rewrite lsum_scal_r.
    change (total_volume p * / total_volume p = 1). now field. }
  assert (Vq : forall a, nth a (p_vol q) 0 = nth a (p_vol p) 0 / total_volume p).
  { intros a. unfold q. cbn [p_vol]. rewrite <- (map_nth (fun v => v / total_volume p)). f_equal. unfold Rdiv. ring. }
  assert (Sq : shaped q) by (split; unfold q; cbn; [now rewrite map_length|auto]).
  split; [exact Sq|]. split; [exact Tq|]. split; [reflexivity|]. split; [reflexivity|].
  split; [unfold num_phases, q; cbn; now rewrite map_length|]. split; [|split; [|split; [exact Vq|]]].
  - intros i. unfold mean_fraction. rewrite Tq. unfold q at 1. cbn [p_vol p_frac].
    assert (G : forall (l : list R) (l' : list (list R)) c,
      lsum (combine (map (fun v => v / c) l) l') (fun '(v, row) => v * nth i row 0) =
      lsum (combine l l') (fun '(v, row) => v * nth i row 0) / c).
    { induction l as [|v l IH]; intros [|r l'] c; simpl; unfold Rdiv; try ring.
      specialize (IH l' c). unfold Rdiv in IH. rewrite IH. ring. }
    rewrite G. unfold Rdiv. rewrite Rinv_1, Rmult_1_r. reflexivity.
  - intros a b. rewrite !Vq. unfold Rdiv. ring.
  - unfold ph_normalize. rewrite Tq. destruct Sq as [S1 S2]. rewrite ph_copy_eq.
    + f_equal. transitivity {| p_vol := p_vol q; p_frac := p_frac q; p_nc := p_nc q |}; [|reflexivity].
      f_equal. rewrite <- (map_id (p_vol q)) at 2. apply map_ext. intros x. field.
    + rewrite map_length. exact S1.
    + exact S2.
Qed.

(* ------------------------------------------------------------------ *)
(** * C28 -- sort *)

(** [i] is the index of the strictly largest entry of the row *)
Definition top (row : list R) (i : nat) : Prop :=
  (i < length row)%nat /\ forall j, (j < length row)%nat -> j <> i -> nth j row 0 < nth i row 0.

(** sorted by the index of the most concentrated component, for rows where
    that component is unambiguous *)
Definition sorted_by_top (p : phases) : Prop :=
  forall a b i j, (a < b < num_phases p)%nat ->
    top (nth a (p_frac p) []) i -> top (nth b (p_frac p) []) j -> (i <= j)%nat.

(** lexicographic order, written out *)
Definition lex_before (x y : list nat) : Prop :=
  x = y \/ exists k, (forall j, (j < k)%nat -> nth j x O = nth j y O) /\ (nth k x O < nth k y O)%nat.

Lemma lex_le_before x : forall y, length x = length y -> lex_le x y = true -> lex_before x y.
Proof.
  induction x as [|a x IH]; intros [|b y] HL H; try discriminate HL; [now left|].
  simpl in H. destruct (Nat.ltb_spec a b).
  - right. exists O. split; [lia|]. simpl. auto.
  - destruct (Nat.eqb_spec a b) as [<-|]; [|discriminate H].
    destruct (IH y ltac:(simpl in HL; lia) H) as [->|(k & H1 & H2)]; [now left|].
    right. exists (S k). split; [|exact H2]. intros [|j] Hj; simpl; auto. apply H1. lia.
Qed.

(** components ordered from most to least concentrated, as the tie-breaking of
    the call decides *)
Definition enrichment (argsort : list R -> list nat) (row : list R) : list nat := rev (argsort row).

Lemma argsort_length argsort row : argsort_spec argsort -> length (argsort row) = length row.
Proof. intros H. destruct (H row) as [HP _]. apply Permutation_length in HP. now rewrite seq_length in HP. Qed.

(** the enrichment lists every component once, in the order of decreasing
    concentration *)
Lemma enrichment_spec argsort row : argsort_spec argsort ->
  Permutation (enrichment argsort row) (seq 0 (length row)) /\
  forall a b, (a < b < length row)%nat ->
    nth (nth b (enrichment argsort row) O) row 0 <= nth (nth a (enrichment argsort row) O) row 0.
Proof.
  intros H. pose proof (argsort_length _ row H) as HL. destruct (H row) as [HP HS]. split.
  - unfold enrichment. rewrite <- Permutation_rev. exact HP.
  - intros a b Hab. unfold enrichment. rewrite !rev_nth by lia. rewrite HL. apply HS. lia.
Qed.

Lemma enrichment_top argsort row i : argsort_spec argsort -> top row i ->
  nth 0 (enrichment argsort row) O = i.
Proof.
  intros H [Hi HT]. destruct (enrichment_spec _ row H) as [HP HS].
  assert (HL : length (enrichment argsort row) = length row)
    by (apply Permutation_length in HP; now rewrite seq_length in HP).
  assert (Hin : In i (enrichment argsort row)).
  { eapply Permutation_in; [symmetry; exact HP|]. apply in_seq. lia. }
  apply (In_nth _ _ O) in Hin. destruct Hin as (k & Hk & Ek).
  destruct k as [|k]; [exact Ek|]. exfalso.
  assert (H0 : In (nth 0 (enrichment argsort row) O) (seq 0 (length row))).
  { eapply Permutation_in; [exact HP|]. apply nth_In. lia. }
  apply in_seq in H0. specialize (HS 0%nat (S k) ltac:(lia)). rewrite Ek in HS.
  destruct (Nat.eq_dec (nth 0 (enrichment argsort row) O) i) as [E|N].
  - assert (ND : NoDup (enrichment argsort row)) by (eapply Permutation_NoDup; [symmetry; exact HP|apply seq_NoDup]).
    rewrite NoDup_nth in ND. specialize (ND 0%nat (S k) ltac:(lia) ltac:(lia)). rewrite Ek, E in ND.
    specialize (ND eq_refl). discriminate ND.
  - specialize (HT (nth 0 (enrichment argsort row) O) ltac:(lia) N). lra.
Qed.

Lemma lexsort_perm e : Permutation (lexsort e) (seq 0 (length e)).
Proof. apply sort_perm. Qed.

Lemma seq_sorted a n : StronglySorted lt (seq a n).
Proof.
  revert a. induction n; intros a; simpl; constructor; auto.
  apply Forall_forall. intros x Hx. apply in_seq in Hx. lia.
Qed.

(** sort() is total for at least one component.  The result consists of the
    same phases (volume and composition together, with multiplicity), in the
    order of their enrichment, phases of equal enrichment keeping their order;
    the most concentrated component is non-decreasing; totals and means are
    unchanged; sorting again changes nothing. *)
Theorem C28_sort argsort p : argsort_spec argsort -> shaped p -> (0 < p_nc p)%nat ->
  exists q idx, ph_sort argsort p = Ok q /\ shaped q /\ p_nc q = p_nc p /\
    (* the same phases, reordered by idx *)
    Permutation idx (seq 0 (num_phases p)) /\
    p_vol q = map (fun k => nth k (p_vol p) 0) idx /\
    p_frac q = map (fun k => nth k (p_frac p) []) idx /\
    Permutation (combine (p_vol q) (p_frac q)) (combine (p_vol p) (p_frac p)) /\
    (* sorted *)
    (forall a b, (a < b < num_phases q)%nat ->
       lex_before (enrichment argsort (nth a (p_frac q) [])) (enrichment argsort (nth b (p_frac q) []))) /\
    sorted_by_top q /\
    (* stable *)
    (forall a b, (a < b < num_phases q)%nat ->
       enrichment argsort (nth a (p_frac q) []) = enrichment argsort (nth b (p_frac q) []) ->
       (nth a idx O < nth b idx O)%nat) /\
    total_volume q = total_volume p /\
    (forall i, mean_fraction q i = mean_fraction p i) /\
    ph_sort argsort q = Ok q.
Proof.
  intros HA [HL HF] HC. unfold ph_sort at 1. rewrite (proj2 (Nat.eqb_neq _ 0)) by lia.
  set (idx := lexsort (map argsort (p_frac p))).
  assert (HP : Permutation idx (seq 0 (length (p_vol p)))).
  { unfold idx. rewrite lexsort_perm, map_length, HL. reflexivity. }
  assert (Hlen : length idx = length (p_vol p)) by (apply Permutation_length in HP; now rewrite seq_length in HP).
  assert (Hin : forall k, In k idx -> (k < length (p_vol p))%nat).
  { intros k Hk. eapply Permutation_in in Hk; [|exact HP]. apply in_seq in Hk. lia. }
  assert (HF' : Forall (fun row => length row = p_nc p) (map (fun k => nth k (p_frac p) []) idx)).
  { apply Forall_forall. intros row Hr. apply in_map_iff in Hr. destruct Hr as (k & <- & Hk).
    rewrite Forall_forall in HF. apply HF. apply nth_In. rewrite <- HL. auto. }
  rewrite ph_copy_eq; [|now rewrite !map_length|exact HF'].
  eexists. exists idx. split; [reflexivity|]. set (q := {| p_vol := _ |}).
  assert (Sq : shaped q) by (split; unfold q; cbn; [now rewrite !map_length|exact HF']).
  assert (Nq : num_phases q = length idx) by (unfold num_phases, q; cbn; now rewrite map_length).
  assert (HPc : Permutation (combine (p_vol q) (p_frac q)) (combine (p_vol p) (p_frac p))).
  { unfold q. cbn [p_vol p_frac]. rewrite combine_map.
    pose proof (map_nth_seq' 0 (p_vol p) (length (p_vol p)) eq_refl) as E1.
    pose proof (map_nth_seq' [] (p_frac p) (length (p_vol p)) HL) as E2.
    transitivity (combine (map (fun k => nth k (p_vol p) 0) (seq 0 (length (p_vol p))))
                    (map (fun k => nth k (p_frac p) []) (seq 0 (length (p_vol p))))).
    - rewrite combine_map. apply Permutation_map. exact HP.
    - rewrite E1, E2. reflexivity. }
  assert (HS : StronglySorted (fun a b =>
      lex_le (rev (nth a (map argsort (p_frac p)) [])) (rev (nth b (map argsort (p_frac p)) [])) = true /\
      (lex_le (rev (nth b (map argsort (p_frac p)) [])) (rev (nth a (map argsort (p_frac p)) [])) = true -> (a < b)%nat)) idx).
  { unfold idx, lexsort. apply sort_stable.
    - intros a b. apply lex_le_total.
    - intros a b c. apply lex_le_trans.
    - apply seq_sorted. }
  assert (Rq : forall a, (a < length idx)%nat ->
    nth a (p_frac q) [] = nth (nth a idx O) (p_frac p) [] /\
    rev (nth (nth a idx O) (map argsort (p_frac p)) []) = enrichment argsort (nth a (p_frac q) [])).
  { intros a Ha. assert (E : nth a (p_frac q) [] = nth (nth a idx O) (p_frac p) []).
    { unfold q. cbn [p_frac]. now rewrite (nth_map_in _ _ a O). }
    split; [exact E|]. rewrite E. unfold enrichment. f_equal. rewrite (nth_map_in argsort _ _ []); auto.
    rewrite <- HL. apply Hin. now apply nth_In. }
  assert (HSn : forall a b, (a < b < length idx)%nat ->
     lex_le (enrichment argsort (nth a (p_frac q) [])) (enrichment argsort (nth b (p_frac q) [])) = true /\
     (lex_le (enrichment argsort (nth b (p_frac q) [])) (enrichment argsort (nth a (p_frac q) [])) = true ->
      (nth a idx O < nth b idx O)%nat)).
  { intros a b Hab. pose proof (StronglySorted_nth _ _ O HS a b Hab) as G. cbv beta in G.
    destruct (Rq a ltac:(lia)) as [_ E1]. destruct (Rq b ltac:(lia)) as [_ E2]. rewrite E1, E2 in G. exact G. }
  assert (El : forall a, (a < length idx)%nat -> length (enrichment argsort (nth a (p_frac q) [])) = p_nc p).
  { intros a Ha. unfold enrichment. rewrite rev_length, (argsort_length _ _ HA).
    destruct Sq as [_ S2]. rewrite Forall_forall in S2. apply S2. apply nth_In. unfold q. cbn. now rewrite map_length. }
  assert (Tq : total_volume q = total_volume p).
  { destruct Sq as [S1 _]. transitivity (lsum (combine (p_vol q) (p_frac q)) (fun '(a, _) => a)).
    - symmetry. now apply (lsum_combine_fst (p_vol q) (p_frac q) (fun v => v)).
    - rewrite (lsum_perm _ _ _ HPc). now apply (lsum_combine_fst (p_vol p) (p_frac p) (fun v => v)). }
  split; [exact Sq|]. split; [reflexivity|]. split; [exact HP|].
  split; [reflexivity|]. split; [reflexivity|]. split; [exact HPc|]. split; [|split; [|split; [|split; [|split]]]].
  - intros a b Hab. rewrite Nq in Hab. apply lex_le_before; [rewrite !El; lia|]. now apply HSn.
  - intros a b i j Hab Hi Hj. rewrite Nq in Hab.
    destruct (HSn a b Hab) as [G _]. apply (enrichment_top _ _ _ HA) in Hi. apply (enrichment_top _ _ _ HA) in Hj.
    pose proof (El a ltac:(lia)) as La. pose proof (El b ltac:(lia)) as Lb.
    destruct (enrichment argsort (nth a (p_frac q) [])) as [|x xs]; [simpl in La; lia|].
    destruct (enrichment argsort (nth b (p_frac q) [])) as [|y ys]; [simpl in Lb; lia|].
    simpl in Hi, Hj. subst. now apply lex_le_head in G.
  - intros a b Hab HE. rewrite Nq in Hab. apply HSn; auto. rewrite HE. apply lex_le_refl.
  - exact Tq.
  - intros i. unfold mean_fraction. rewrite Tq. f_equal. now apply lsum_perm.
  - unfold ph_sort. change (p_nc q) with (p_nc p). rewrite (proj2 (Nat.eqb_neq _ 0)) by lia.
    assert (HI : lexsort (map argsort (p_frac q)) = seq 0 (length idx)).
    { unfold lexsort. rewrite map_length. replace (length (p_frac q)) with (length idx)
        by (unfold q; cbn; now rewrite map_length).
      apply sort_sorted_id. apply nth_StronglySorted with (d := O). rewrite seq_length. intros a b Hab.
      rewrite !seq_nth by lia. cbn [plus].
      assert (Lf : length (p_frac q) = length idx) by (unfold q; cbn; now rewrite map_length).
      rewrite !(nth_map_in argsort _ _ []) by lia. now apply HSn. }
    rewrite HI. destruct Sq as [S1 S2].
    rewrite (map_nth_seq' 0 (p_vol q)) by (unfold q; cbn; now rewrite map_length).
    rewrite (map_nth_seq' [] (p_frac q)) by (unfold q; cbn; now rewrite map_length).
    rewrite ph_copy_eq by auto. reflexivity.
Qed.

(** Without components there is no key to sort by. *)
Theorem C28_no_components argsort p : p_nc p = 0%nat -> ph_sort argsort p = Err TypeError.
Proof. intros H. unfold ph_sort. now rewrite H. Qed.

(* ------------------------------------------------------------------ *)
(** * C29 -- get_clusters *)

(** the sum of [f] over the phases carrying the label *)
Definition over_label (labels : list nat) (n : nat) (f : nat -> R) : R :=
  rsum (length labels) (fun k => if Nat.eqb (nth k labels O) n then f k else 0).

Lemma lsum_select {A} labels n (l : list A) d f : length l = length labels ->
  lsum (select labels n l) f = over_label labels n (fun k => f (nth k l d)).
Proof.
  intros HL. unfold over_label. rewrite <- lsum_seq_rsum. revert l HL.
  induction labels as [|a labels IH]; intros [|x l] HL; simpl in HL; try discriminate; [reflexivity|].
  rewrite select_cons. cbn [length seq lsum nth]. rewrite <- seq_shift, lsum_map. cbn [nth].
  rewrite <- IH by lia. destruct (Nat.eqb a n); simpl; lra.
Qed.

Lemma collect_ok p labels ns vs fs : collect p labels ns = Ok (vs, fs) ->
  (forall n, In n ns -> lsum (select labels n (p_vol p)) (fun v => v) <> 0) /\
  vs = map (fun n => lsum (select labels n (p_vol p)) (fun v => v)) ns /\
  fs = map (fun n => map (fun i =>
         lsum (combine (select labels n (p_vol p)) (select labels n (p_frac p))) (fun '(v, row) => v * nth i row 0) /
         lsum (select labels n (p_vol p)) (fun v => v)) (seq 0 (p_nc p))) ns.
Proof.
  revert vs fs. induction ns as [|n ns IH]; intros vs fs H; cbn [collect] in H.
  - injection H as <- <-. split; [easy|split; reflexivity].
  - unfold np_average in H. destruct (Reqb _ 0) eqn:E; [discriminate H|]. cbn [bind] in H.
    destruct (collect p labels ns) as [[vs' fs']|]; [|discriminate H]. cbn [bind] in H.
    injection H as <- <-. destruct (IH _ _ eq_refl) as (H1 & -> & ->).
    split; [|split; reflexivity]. intros m [<-|Hm]; [|auto]. now apply Reqb_false.
Qed.

Lemma collect_total p labels ns : (forall n, In n ns -> lsum (select labels n (p_vol p)) (fun v => v) <> 0) ->
  exists r, collect p labels ns = Ok r.
Proof.
  induction ns as [|n ns IH]; intros H; cbn [collect]; [eauto|].
  unfold np_average. destruct (Reqb _ 0) eqn:E.
  - apply Reqb_true in E. exfalso. apply (H n); [now left|exact E].
  - cbn [bind]. destruct IH as [[vs fs] ->]; [intros; apply H; now right|]. cbn [bind]. eauto.
Qed.

(** Whenever get_clusters succeeds on at least two phases: one phase per
    distinct label, its volume is the sum over the members, its composition
    the volume-weighted mean; total volume and mean fractions are conserved. *)
Theorem C29_conserved fcluster p q : fcluster_spec fcluster -> shaped p -> (2 <= num_phases p)%nat ->
  get_clusters fcluster p = Ok q ->
  let labels := fcluster (p_frac p) in
  shaped q /\ p_nc q = p_nc p /\
  total_volume q = total_volume p /\
  (forall i, (i < p_nc p)%nat -> mean_fraction q i = mean_fraction p i) /\
  exists ns, NoDup ns /\ (forall n, In n ns <-> In n labels) /\ num_phases q = length ns /\
    forall k, (k < length ns)%nat ->
      let n := nth k ns O in
      nth k (p_vol q) 0 = over_label labels n (fun m => nth m (p_vol p) 0) /\
      forall i, (i < p_nc p)%nat ->
        nth i (nth k (p_frac q) []) 0 * over_label labels n (fun m => nth m (p_vol p) 0) =
        over_label labels n (fun m => nth m (p_vol p) 0 * nth i (nth m (p_frac p) []) 0).
Proof.
  intros HC [HL HF] H2 H labels. unfold get_clusters in H. rewrite (proj2 (Nat.ltb_ge _ _)) in H by exact H2.
  fold labels in H.
  assert (Hlab : length labels = length (p_frac p)) by apply HC.
  destruct (collect p labels (np_unique labels)) as [[vs fs]|] eqn:EC; [|discriminate H]. cbn [bind] in H.
  destruct (collect_ok _ _ _ _ _ EC) as (HN & Ev & Ef).
  assert (HFf : Forall (fun row => length row = p_nc p) fs).
  { rewrite Ef. apply Forall_forall. intros row Hr. apply in_map_iff in Hr. destruct Hr as (n & <- & _).
    now rewrite map_length, seq_length. }
  rewrite ph_copy_eq in H; [|now rewrite Ev, Ef, !map_length|exact HFf]. injection H as <-.
  destruct (np_unique_spec labels) as (ND & HIn & _).
  assert (HI : incl labels (np_unique labels)) by (intros x Hx; now apply HIn).
  assert (HT : lsum vs (fun v => v) = total_volume p).
  { rewrite Ev, lsum_map. unfold total_volume. apply lsum_groups; auto. congruence. }
  split; [split; cbn; [now rewrite Ev, Ef, !map_length|exact HFf]|]. split; [reflexivity|].
  split; [exact HT|]. split.
  - intros i Hi. unfold mean_fraction. cbn [p_vol p_frac]. unfold total_volume at 1. cbn [p_vol]. rewrite HT.
    f_equal. rewrite Ev, Ef, combine_map, lsum_map.
    rewrite <- (lsum_groups labels (np_unique labels) (combine (p_vol p) (p_frac p))); auto.
    2: { rewrite combine_length, HL, Nat.min_id. congruence. }
    apply lsum_ext. intros n Hn. cbv beta.
    rewrite (nth_map_in _ _ i O) by now rewrite seq_length. rewrite seq_nth by auto. cbn [plus].
    rewrite <- select_combine by congruence. field. now apply HN.
  - exists (np_unique labels). split; [exact ND|]. split; [exact HIn|].
    split; [unfold num_phases; cbn; now rewrite Ev, map_length|].
    intros k Hk. cbn zeta. cbn [p_vol p_frac]. split.
    + rewrite Ev, (nth_map_in _ _ k O) by auto. apply (lsum_select _ _ _ 0 (fun v => v)). congruence.
    + intros i Hi. rewrite Ef, (nth_map_in _ _ k O) by auto.
      rewrite (nth_map_in _ _ i O) by now rewrite seq_length. rewrite seq_nth by auto. cbn [plus].
      rewrite <- (lsum_select _ _ (p_vol p) 0 (fun v => v)) by congruence.
      rewrite select_combine by congruence.
      rewrite (lsum_select _ _ (combine (p_vol p) (p_frac p)) (0, [])).
      2: { rewrite combine_length, HL, Nat.min_id. congruence. }
      unfold Rdiv. rewrite Rmult_assoc, Rinv_l by (apply HN, nth_In; auto). rewrite Rmult_1_r.
      unfold over_label. apply rsum_ext. intros m Hm. rewrite combine_nth by auto. reflexivity.
Qed.

(** With positive volumes it never fails, volumes stay positive, compositions
    stay between those of the members, and rows summing to one still do. *)
Theorem C29_positive fcluster p : fcluster_spec fcluster -> shaped p -> (2 <= num_phases p)%nat ->
  (forall k, (k < num_phases p)%nat -> 0 < nth k (p_vol p) 0) ->
  exists q ns, get_clusters fcluster p = Ok q /\
    NoDup ns /\ (forall n, In n ns <-> In n (fcluster (p_frac p))) /\ num_phases q = length ns /\
    (forall k, (k < num_phases q)%nat -> 0 < nth k (p_vol q) 0) /\
    (forall k i lo hi, (k < num_phases q)%nat -> (i < p_nc p)%nat ->
       (forall m, (m < num_phases p)%nat -> nth m (fcluster (p_frac p)) O = nth k ns O ->
          lo <= nth i (nth m (p_frac p) []) 0 <= hi) ->
       lo <= nth i (nth k (p_frac q) []) 0 <= hi) /\
    ((forall row, In row (p_frac p) -> lsum row (fun x => x) = 1) ->
     (forall row, In row (p_frac q) -> lsum row (fun x => x) = 1)).
Proof.
  intros HC HSh H2 HV. pose proof HSh as [HL HF].
  set (labels := fcluster (p_frac p)). assert (Hlab : length labels = length (p_frac p)) by apply HC.
  destruct (np_unique_spec labels) as (_ & HIn0 & _).
  assert (HN : forall n, In n (np_unique labels) -> lsum (select labels n (p_vol p)) (fun v => v) <> 0).
  { intros n Hn. apply Rgt_not_eq. apply lsum_pos.
    - apply select_nonempty; [congruence|]. now apply HIn0.
    - intros v Hv. apply select_In in Hv. apply (In_nth _ _ 0) in Hv. destruct Hv as (k & Hk & <-). now apply HV. }
  assert (HX : exists q, get_clusters fcluster p = Ok q).
  { unfold get_clusters. rewrite (proj2 (Nat.ltb_ge _ _)) by exact H2. fold labels.
    destruct (collect_total p labels _ HN) as [[vs fs] EC]. rewrite EC. cbn [bind].
    destruct (collect_ok _ _ _ _ _ EC) as (_ & Ev & Ef). rewrite ph_copy_eq; eauto.
    - now rewrite Ev, Ef, !map_length.
    - rewrite Ef. apply Forall_forall. intros row Hr. apply in_map_iff in Hr. destruct Hr as (n & <- & _).
      now rewrite map_length, seq_length. }
  destruct HX as [q Hq]. exists q.
  destruct (C29_conserved fcluster p q HC HSh H2 Hq) as (Sq & Nq & _ & _ & ns & ND & HIn & Hlen & HK).
  fold labels in HIn, HK. exists ns. split; [exact Hq|]. split; [exact ND|]. split; [exact HIn|].
  split; [exact Hlen|].
  assert (HW : forall k, (k < length ns)%nat -> 0 < over_label labels (nth k ns O) (fun m => nth m (p_vol p) 0)).
  { intros k Hk. rewrite <- (lsum_select _ _ (p_vol p) 0 (fun v => v)) by congruence. apply lsum_pos.
    - apply select_nonempty; [congruence|]. apply HIn. now apply nth_In.
    - intros v Hv. apply select_In in Hv. apply (In_nth _ _ 0) in Hv. destruct Hv as (m & Hm & <-). now apply HV. }
  split; [|split].
  - intros k Hk. rewrite Hlen in Hk. destruct (HK k Hk) as [-> _]. auto.
  - intros k i lo hi Hk Hi HB. rewrite Hlen in Hk. destruct (HK k Hk) as [_ HE]. specialize (HE i Hi).
    specialize (HW k Hk). set (x := nth i (nth k (p_frac q) []) 0) in *.
    set (W := over_label labels (nth k ns O) (fun m => nth m (p_vol p) 0)) in *.
    assert (B1 : lo * W <= x * W).
    { rewrite HE. unfold W, over_label. rewrite <- rsum_scal_l. apply rsum_le. intros m Hm.
      destruct (Nat.eqb_spec (nth m labels O) (nth k ns O)) as [E|N]; [|lra].
      assert (Hm' : (m < num_phases p)%nat) by (unfold num_phases; lia).
      specialize (HB m Hm' E). specialize (HV m Hm'). nra. }
    assert (B2 : x * W <= hi * W).
    { rewrite HE. unfold W, over_label. rewrite <- rsum_scal_l. apply rsum_le. intros m Hm.
      destruct (Nat.eqb_spec (nth m labels O) (nth k ns O)) as [E|N]; [|lra].
      assert (Hm' : (m < num_phases p)%nat) by (unfold num_phases; lia).
      specialize (HB m Hm' E). specialize (HV m Hm'). nra. }
    split; nra.
  - intros H1 row Hr. apply (In_nth _ _ []) in Hr. destruct Hr as (k & Hk & <-).
    destruct Sq as [Sq1 Sq2]. assert (Hk' : (k < length ns)%nat) by (rewrite <- Hlen; unfold num_phases; lia).
    destruct (HK k Hk') as [_ HE]. specialize (HW k Hk').
    set (W := over_label labels (nth k ns O) (fun m => nth m (p_vol p) 0)) in *.
    assert (Lr : length (nth k (p_frac q) []) = p_nc p).
    { rewrite Forall_forall in Sq2. rewrite (Sq2 (nth k (p_frac q) [])); [exact Nq|now apply nth_In]. }
    assert (E : lsum (nth k (p_frac q) []) (fun x => x) * W = W).
    { rewrite lsum_nth, Lr, Rmult_comm, <- rsum_scal_l.
      rewrite (rsum_ext _ _ (fun i => over_label labels (nth k ns O) (fun m => nth m (p_vol p) 0 * nth i (nth m (p_frac p) []) 0))).
      2: { intros i Hi. rewrite Rmult_comm. now apply HE. }
      unfold over_label at 1. rewrite rsum_swap. unfold W, over_label. apply rsum_ext. intros m Hm.
      destruct (Nat.eqb (nth m labels O) (nth k ns O)); [|apply rsum_zero; auto].
      rewrite rsum_scal_l. rewrite Forall_forall in HF.
      assert (Hin : In (nth m (p_frac p) []) (p_frac p)) by (apply nth_In; lia).
      rewrite <- (HF _ Hin), <- lsum_nth, (H1 _ Hin). ring. }
    nra.
Qed.

(** Objects with fewer than two phases are returned unchanged. *)
Theorem C29_single fcluster p : (num_phases p < 2)%nat -> get_clusters fcluster p = Ok p.
Proof. intros H. unfold get_clusters. now rewrite (proj2 (Nat.ltb_lt _ _)). Qed.

(* ------------------------------------------------------------------ *)
(** * C30 -- get_clusters does not sort *)

(** the pairwise Euclidean distances handed to the clustering (phases.py:126) *)
Definition distance (x y : list R) : R :=
  sqrt (lsum (combine x y) (fun '(a, b) => (a - b) * (a - b))).
Fixpoint pdist (rows : list (list R)) : list R :=
  match rows with [] => [] | r :: rows' => map (distance r) rows' ++ pdist rows' end.

Definition rowA := [9 / 10; 1 / 10].
Definition rowB := [1 / 10; 9 / 10].
Definition two_phases (r s : list R) : phases := {| p_vol := [1; 1]; p_frac := [r; s]; p_nc := 2 |}.

Lemma top_A : top rowA 0.
Proof. split; [cbn; lia|]. intros [|[|j]] Hj N; cbn in *; try lia; lra. Qed.
Lemma top_B : top rowB 1.
Proof. split; [cbn; lia|]. intros [|[|j]] Hj N; cbn in *; try lia; lra. Qed.

Lemma two_clusters fcluster r s a b :
  length r = 2%nat -> length s = 2%nat ->
  fcluster [r; s] = [a; b] -> a <> b ->
  get_clusters fcluster (two_phases r s) =
    Ok (if Nat.leb a b then two_phases r s else two_phases s r).
Proof.
  intros Hr Hs HE Hab. unfold get_clusters, two_phases, num_phases. cbn [p_vol p_frac p_nc length Nat.ltb Nat.leb].
  rewrite HE. unfold np_unique. simpl nodup.
  destruct (Nat.eq_dec b a) as [->|_]; [congruence|].
  destruct r as [|r0 [|r1 [|? ?]]]; try discriminate Hr. destruct s as [|s0 [|s1 [|? ?]]]; try discriminate Hs.
  assert (Hx : forall n, Nat.eqb n n = true) by apply Nat.eqb_refl.
  assert (Hab1 : Nat.eqb a b = false) by now apply Nat.eqb_neq.
  assert (Hab2 : Nat.eqb b a = false) by (apply Nat.eqb_neq; congruence).
  assert (N1 : Reqb (1 + 0) 0 = false) by (apply Reqb_false; lra).
  simpl sort_by. destruct (Nat.leb a b) eqn:El;
    unfold collect, np_average, select; cbn [combine filter p_frac p_vol p_nc map snd];
    rewrite ?Hab1, ?Hab2, ?Hx; cbn [map snd lsum combine]; rewrite N1; cbn [bind seq map nth];
    unfold lsum; cbn [bind];
    rewrite ph_copy_eq; try reflexivity; try (repeat constructor);
    f_equal; unfold two_phases; f_equal; f_equal; try lra; f_equal; try (f_equal; try lra; f_equal; lra); try lra.
  all: try (f_equal; f_equal; lra).
Qed.

(** For every clustering that sees only the distances (as scipy's does) and
    keeps the two far phases apart there is an input with unsorted output. *)
Theorem C30_clusters_sorted_refuted fcluster :
  (forall rows rows', pdist rows = pdist rows' -> fcluster rows = fcluster rows') ->
  (exists a b, fcluster [rowA; rowB] = [a; b] /\ a <> b) ->
  exists p q, shaped p /\ get_clusters fcluster p = Ok q /\ num_phases q = 2%nat /\ ~ sorted_by_top q.
Proof.
  intros HD (a & b & HE & Hab).
  assert (HE' : fcluster [rowB; rowA] = [a; b]).
  { rewrite <- HE. apply HD. unfold pdist, distance, rowA, rowB. simpl. f_equal. f_equal. lra. }
  assert (HU : ~ sorted_by_top (two_phases rowB rowA)).
  { intros H. specialize (H 0%nat 1%nat 1%nat 0%nat). cbn in H. specialize (H ltac:(lia) top_B top_A). lia. }
  assert (HSh : forall r s, length r = 2%nat -> length s = 2%nat -> shaped (two_phases r s)).
  { intros r s H1 H2. split; [reflexivity|]. cbn. auto. }
  destruct (Nat.leb a b) eqn:El.
  - exists (two_phases rowB rowA), (two_phases rowB rowA). split; [now apply HSh|].
    rewrite (two_clusters fcluster rowB rowA a b); auto. rewrite El. auto.
  - exists (two_phases rowA rowB), (two_phases rowB rowA). split; [now apply HSh|].
    rewrite (two_clusters fcluster rowA rowB a b); auto. rewrite El. auto.
Qed.

(** What does hold: sorting the clusters afterwards, as the shortcut does. *)
Theorem C30_sort_afterwards argsort fcluster p q : argsort_spec argsort -> shaped p -> (0 < p_nc p)%nat ->
  get_clusters fcluster p = Ok q -> exists r, ph_sort argsort q = Ok r /\ sorted_by_top r.
Proof.
  intros HA HS HN H. destruct (C26_operations [Clusters fcluster] p q HS) as [Sq Nq].
  - cbn [do_ops do_op]. rewrite H. reflexivity.
  - destruct (C28_sort argsort q HA Sq ltac:(lia)) as (r & idx & Hr & _ & _ & _ & _ & _ & _ & _ & HT & _).
    eauto.
Qed.

(* ------------------------------------------------------------------ *)
(** * C31 -- PhasesResult *)

Definition do_obj (o : op) (h : heap) (b : pobj) : res (heap * pobj) :=
  match o with
  | Normalize => obj_normalize h b
  | Sort a => obj_sort a h b
  | Clusters c => obj_clusters c h b
  end.

Fixpoint do_objs (os : list op) (h : heap) (b : pobj) : res (heap * pobj) :=
  match os with [] => Ok (h, b) | o :: os' => let* (h', b') := do_obj o h b in do_objs os' h' b' end.

(** the object's dictionary exists *)
Definition allocated (h : heap) (b : pobj) : Prop :=
  match b_info b with None => True | Some a => (a < h_next h)%nat end.

Definition info_of (h : heap) (b : pobj) : option dict := option_map (h_cell h) (b_info b).

(** operations that always make a copy *)
Definition copies (o : op) : Prop := match o with Clusters _ => False | _ => True end.

(** [r] has its own dictionary, unless it is the object [b] itself *)
Definition separate (b r : pobj) : Prop :=
  match b_info b, b_info r with Some a, Some a' => a' <> a | _, _ => True end.

Lemma do_obj_facts o h b h' b' : allocated h b -> do_obj o h b = Ok (h', b') ->
  do_op o (b_ph b) = Ok (b_ph b') /\
  allocated h' b' /\ info_of h' b' = info_of h b /\
  (h_next h <= h_next h')%nat /\ (forall a, (a < h_next h)%nat -> h_cell h' a = h_cell h a) /\
  ((h' = h /\ b' = b /\ ~ copies o) \/
   match b_info b' with Some a' => (h_next h <= a')%nat | None => b_info b = None end).
Proof.
  intros HA H.
  assert (HC : forall r, obj_copy h b r = Ok (h', b') ->
     r = Ok (b_ph b') /\ allocated h' b' /\ info_of h' b' = info_of h b /\
     (h_next h <= h_next h')%nat /\ (forall a, (a < h_next h)%nat -> h_cell h' a = h_cell h a) /\
     match b_info b' with Some a' => (h_next h <= a')%nat | None => b_info b = None end).
  { intros r Hr. unfold obj_copy in Hr. destruct r as [p|e]; [|discriminate Hr]. cbn [bind] in Hr.
    unfold allocated, info_of in *. destruct (b_info b) as [a|] eqn:Eb.
    - cbn in Hr. injection Hr as <- <-. cbn. unfold upd. rewrite Nat.eqb_refl.
      split; [reflexivity|]. split; [lia|]. split; [reflexivity|]. split; [lia|]. split; [|lia].
      intros c Hc. destruct (Nat.eqb_spec c (h_next h)); [lia|reflexivity].
    - injection Hr as <- <-. cbn. repeat split; auto. }
  destruct o as [|s|c]; cbn [do_obj] in H.
  - apply HC in H. cbn [do_op]. intuition.
  - apply HC in H. cbn [do_op]. intuition.
  - unfold obj_clusters in H. cbn [do_op copies]. destruct (Nat.ltb _ 2) eqn:E.
    + injection H as <- <-. apply Nat.ltb_lt in E. rewrite C29_single by exact E.
      split; [reflexivity|]. split; [exact HA|]. split; [reflexivity|]. split; [lia|]. split; [auto|]. left. auto.
    + apply HC in H. intuition.
Qed.

(** Any sequence of operations keeps the kind of object and the contents of
    its info, never changes a dictionary that existed before, and acts on the
    phases as on a plain object.  As soon as it contains one normalize or sort
    the result has a dictionary of its own. *)
Theorem C31_info_kept os h b h' b' : allocated h b -> do_objs os h b = Ok (h', b') ->
  do_ops os (b_ph b) = Ok (b_ph b') /\
  (b_info b' = None <-> b_info b = None) /\
  info_of h' b' = info_of h b /\ allocated h' b' /\
  (forall a, (a < h_next h)%nat -> h_cell h' a = h_cell h a) /\
  (Exists copies os -> separate b b').
Proof.
  intros HA H.
  assert (G : do_ops os (b_ph b) = Ok (b_ph b') /\ info_of h' b' = info_of h b /\ allocated h' b' /\
     (h_next h <= h_next h')%nat /\ (forall a, (a < h_next h)%nat -> h_cell h' a = h_cell h a) /\
     (b_info b' = b_info b \/ match b_info b' with Some a' => (h_next h <= a')%nat | None => b_info b = None end) /\
     (Exists copies os -> match b_info b' with Some a' => (h_next h <= a')%nat | None => b_info b = None end)).
  { revert h b HA H. induction os as [|o os IH]; intros h b HA H; cbn [do_objs] in H.
    - injection H as <- <-. cbn [do_ops]. repeat split; auto. intros HX. inversion HX.
    - destruct (do_obj o h b) as [[h1 b1]|] eqn:E; [|discriminate H]. cbn [bind] in H.
      destruct (do_obj_facts _ _ _ _ _ HA E) as (F1 & F2 & F3 & F4 & F5 & F6).
      destruct (IH h1 b1 F2 H) as (G1 & G2 & G3 & G4 & G5 & G6 & G7).
      assert (HI1 : b_info b1 = None <-> b_info b = None).
      { clear -F3. unfold info_of in F3. destruct (b_info b1), (b_info b); simpl in F3; try discriminate F3; split; congruence. }
      cbn [do_ops]. rewrite F1. cbn [bind]. split; [exact G1|]. split; [congruence|]. split; [exact G3|].
      split; [lia|]. split; [intros a Ha; rewrite G5 by lia; auto|].
      assert (FX : match b_info b1 with Some a' => (h_next h <= a')%nat | None => b_info b = None end ->
               match b_info b' with Some a' => (h_next h <= a')%nat | None => b_info b = None end).
      { intros F. destruct G6 as [G6|G6].
        - rewrite G6. exact F.
        - destruct (b_info b') as [a'|]; [lia|]. now apply HI1. }
      split.
      + destruct F6 as [(-> & -> & _)|F6]; [exact G6|]. right. exact (FX F6).
      + intros HX. destruct F6 as [(-> & -> & NC)|F6]; [|exact (FX F6)]. inversion HX; subst; [contradiction|now apply G7]. }
  destruct G as (G1 & G2 & G3 & G4 & G5 & G6 & G7).
  split; [exact G1|]. split; [|split; [exact G2|split; [exact G3|split; [exact G5|]]]].
  - clear -G2. unfold info_of in G2. destruct (b_info b'), (b_info b); simpl in G2; try discriminate G2; split; congruence.
  - intros HX. specialize (G7 HX). unfold separate, allocated in *. destruct (b_info b), (b_info b'); auto. lia.
Qed.

(** Writing into either dictionary afterwards leaves the other as it is. *)
Theorem C31_independent os h b h' b' key val : allocated h b -> do_objs os h b = Ok (h', b') ->
  Exists copies os -> forall a a', b_info b = Some a -> b_info b' = Some a' ->
  h_cell (heap_set h' a' key val) a = h_cell h a /\
  h_cell (heap_set h' a key val) a' = h_cell h a.
Proof.
  intros HA H HX a a' Ea Ea'. destruct (C31_info_kept _ _ _ _ _ HA H) as (_ & _ & HI & _ & HO & HS).
  specialize (HS HX). unfold separate, allocated, info_of in *. rewrite Ea, Ea' in *. simpl in HI.
  injection HI as HI. unfold heap_set. cbn [h_cell]. unfold upd.
  destruct (Nat.eqb_spec a a'); [congruence|]. destruct (Nat.eqb_spec a' a); [congruence|]. auto.
Qed.

(** get_clusters of a single phase is the exception: it returns the object
    itself, so writing into the result's info does alter the original. *)
Theorem C31_clusters_copy_refuted fcluster : exists h b h' b' a' key val,
  allocated h b /\ obj_clusters fcluster h b = Ok (h', b') /\ b_info b = Some a' /\ b_info b' = Some a' /\
  dict_get (h_cell (heap_set h' a' key val) a') key <> dict_get (h_cell h a') key.
Proof.
  exists {| h_next := 1; h_cell := fun _ => [] |},
    {| b_ph := {| p_vol := [1]; p_frac := [[1 / 2; 1 / 2]]; p_nc := 2 |}; b_info := Some O |}.
  do 2 eexists. exists O, "x"%string, 1. cbn. repeat split; auto. discriminate.
Qed.

(** from_phases keeps the phases and hands over the dictionary. *)
Theorem C31_from_phases h b d :
  let '(h', r) := from_phases h b d in
  b_ph r = b_ph b /\ b_info r <> None /\
  match d with Some a => b_info r = Some a /\ h' = h | None => info_of h' r = Some [] end.
Proof.
  unfold from_phases, heap_alloc, info_of. destruct d as [a|]; cbn; repeat split; auto; try discriminate.
  unfold upd. now rewrite Nat.eqb_refl.
Qed.

(* ------------------------------------------------------------------ *)
(** * C32 -- random compositions *)

Theorem C32_simplex {G} (ops : rng_ops G) (HR : rng_contract ops) n g : (1 <= n)%nat ->
  exists phis g', random_composition ops n g = Ok (phis, g') /\
    (forall i, (i < n)%nat -> 0 <= phis i <= 1) /\ rsum n phis = 1.
Proof.
  intros Hn. destruct n as [|n]; [lia|]. unfold random_composition.
  set (body := fun d '(phis, phi_max, g) => _).
  pose (I := fun (d : nat) (s : vec * R * G) => let '(phis, m, _) := s in
     0 <= m <= 1 /\ (forall i, (i < d)%nat -> 0 <= phis i <= 1) /\ rsum d phis = 1 - m).
  assert (HI : I n (for_ n body ((fun _ => 0), 1, g))).
  { apply (for_ind I).
    - simpl. split; [lra|]. split; [lia|]. lra.
    - intros d [[phis m] g0] Hd (H1 & H2 & H3). unfold body.
      pose proof (beta_range _ HR g0 (S n - d - 1)) as HB.
      destruct (g_beta ops g0 (S n - d - 1)) as [b g1]. cbn [fst] in HB. unfold I.
      split; [nra|]. split.
      + intros i Hi. unfold upd. destruct (Nat.eqb_spec i d); [nra|]. apply H2. lia.
      + cbn [rsum]. rewrite (rsum_ext d _ phis), H3.
        * unfold upd. rewrite Nat.eqb_refl. ring.
        * intros i Hi. unfold upd. destruct (Nat.eqb_spec i d); [lia|reflexivity]. }
  destruct (for_ n body _) as [[phis m] g']. destruct HI as (H1 & H2 & H3).
  do 2 eexists. split; [reflexivity|]. split.
  - intros i Hi. unfold upd. destruct (Nat.eqb_spec i n); [lra|]. apply H2. lia.
  - cbn [rsum]. rewrite (rsum_ext n _ phis).
    + unfold upd. rewrite Nat.eqb_refl. ring.
    + intros i Hi. unfold upd. destruct (Nat.eqb_spec i n); [lia|reflexivity].
Qed.

(** zero components: numpy's IndexError *)
Theorem C32_zero {G} (ops : rng_ops G) g : random_composition ops 0 g = Err IndexError.
Proof. reflexivity. Qed.
