(** PropertiesObjects.v -- C33-C37 and C55: helpers, parameter objects and the
    sharing of their arrays with a finder. *)

From Coq Require Import String Reals Lra Lia List Bool Arith ZArith.
From Verif Require Import Base ModelCommon ModelParts ModelKernel ModelObjects ProofsPhases.
Import ListNotations.
Open Scope R_scope.

(* ------------------------------------------------------------------ *)
(** * C33 -- block expansion *)

(** number of entries before block [r] *)
Definition offset (sizes : list nat) (r : nat) : nat := list_sum (firstn r sizes).
(** position [i] lies in block [r] *)
Definition in_block (sizes : list nat) (r i : nat) : Prop :=
  (r < length sizes)%nat /\ (offset sizes r <= i < offset sizes r + nth r sizes O)%nat.

Lemma np_repeat_length {A} (l : list A) sizes : length l = length sizes -> length (np_repeat l sizes) = list_sum sizes.
Proof.
  revert sizes. induction l as [|x l IH]; intros [|n sizes] H; try discriminate H; [reflexivity|].
  cbn [np_repeat]. rewrite app_length, repeat_length, IH by (simpl in H; lia). reflexivity.
Qed.

Lemma np_repeat_nth {A} (l : list A) sizes d r i : length l = length sizes -> in_block sizes r i ->
  nth i (np_repeat l sizes) d = nth r l d.
Proof.
  unfold in_block, offset. revert sizes r i.
  induction l as [|x l IH]; intros [|n sizes] r i HL [Hr Hi]; try discriminate HL; [simpl in Hr; lia|].
  cbn [np_repeat]. destruct r as [|r].
  - cbn in Hi. rewrite app_nth1 by (rewrite repeat_length; lia). cbn [nth].
    assert (Hn : (i < n)%nat) by lia. clear -Hn. revert i Hn. induction n; intros [|i] Hn; simpl; try lia; auto. apply IHn. lia.
  - cbn [firstn list_sum fold_right nth] in Hi. change (fold_right Nat.add 0%nat (firstn r sizes)) with (list_sum (firstn r sizes)) in Hi.
    rewrite app_nth2 by (rewrite repeat_length; lia). rewrite repeat_length. cbn [nth].
    apply IH; [simpl in HL; lia|]. split; [simpl in Hr; lia|lia].
Qed.

(** every position lies in exactly one block *)
Lemma block_of_in sizes i : (i < list_sum sizes)%nat -> in_block sizes (block_of sizes i) i.
Proof.
  revert i. induction sizes as [|n sizes IH]; intros i Hi; [simpl in Hi; lia|].
  change (list_sum (n :: sizes)) with (n + list_sum sizes)%nat in Hi.
  cbn [block_of]. destruct (Nat.ltb_spec i n).
  - split; [simpl; lia|]. unfold offset. simpl. lia.
  - destruct (IH (i - n)%nat) as [H1 H2]; [lia|]. split; [simpl; lia|].
    unfold offset in *. cbn [firstn nth list_sum fold_right].
    change (fold_right Nat.add 0%nat (firstn (block_of sizes (i - n)) sizes)) with (list_sum (firstn (block_of sizes (i - n)) sizes)). lia.
Qed.

Lemma in_block_unique sizes r r' i : in_block sizes r i -> in_block sizes r' i -> r = r'.
Proof.
  unfold in_block, offset. revert r r' i. induction sizes as [|n sizes IH]; intros r r' i [H1 H2] [H1' H2']; [simpl in H1; lia|].
  assert (C : forall k, list_sum (firstn (S k) (n :: sizes)) = (n + list_sum (firstn k sizes))%nat) by reflexivity.
  destruct r as [|r], r' as [|r']; auto; rewrite ?C in *; cbn [firstn nth length] in *; try (simpl in *; lia).
  f_equal. apply (IH r r' (i - n)%nat); split; lia.
Qed.

Theorem C33_entries {A} (arr : list (list A)) nc sizes (d : A) :
  length arr = nc -> Forall (fun row => length row = nc) arr -> length sizes = nc ->
  exists out, make_square_blocks arr nc sizes = Ok out /\
    length out = list_sum sizes /\ Forall (fun row => length row = list_sum sizes) out /\
    (forall i j r s, in_block sizes r i -> in_block sizes s j ->
       nth j (nth i out []) d = nth s (nth r arr []) d) /\
    (forall i, (i < list_sum sizes)%nat -> exists r, in_block sizes r i).
Proof.
  intros H1 H2 H3. unfold make_square_blocks. rewrite H1, H3, !Nat.eqb_refl. cbn [andb].
  eexists. split; [reflexivity|]. split; [|split; [|split]].
  - rewrite map_length. apply np_repeat_length. lia.
  - apply Forall_forall. intros row Hr. apply in_map_iff in Hr. destruct Hr as (row0 & <- & Hr).
    apply np_repeat_length. rewrite Forall_forall in H2. rewrite H3. apply H2.
    assert (Hsub : forall (B : Type) (l : list B) sz x, In x (np_repeat l sz) -> In x l).
    { clear. induction l as [|y l IH]; intros [|n sz] x Hx; simpl in *; try contradiction.
      apply in_app_or in Hx. destruct Hx as [Hx|Hx]; [apply repeat_spec in Hx; auto|eauto]. }
    eapply Hsub; eauto.
  - intros i j r s Hi Hj.
    assert (Li : (i < length (np_repeat arr sizes))%nat).
    { rewrite np_repeat_length by lia. destruct Hi as [Hr Hi]. clear -Hr Hi. unfold offset in Hi.
      revert r i Hr Hi. induction sizes as [|n sizes IH]; intros [|r] i Hr Hi; simpl in *; try lia.
      specialize (IH r (i - n)%nat ltac:(lia)). unfold list_sum in *. lia. }
    rewrite (nth_map_in (fun row => np_repeat row sizes) _ i []) by exact Li.
    rewrite (np_repeat_nth arr sizes [] r i) by (auto; lia).
    rewrite (np_repeat_nth _ sizes d s j); auto. rewrite H3. rewrite Forall_forall in H2. apply H2.
    apply nth_In. destruct Hi as [Hr _]. lia.
  - intros i Hi. eexists. now apply block_of_in.
Qed.

Theorem C33_symmetric {A} (arr : list (list A)) nc sizes (d : A) out :
  length arr = nc -> Forall (fun row => length row = nc) arr -> length sizes = nc ->
  (forall r s, (r < nc)%nat -> (s < nc)%nat -> nth s (nth r arr []) d = nth r (nth s arr []) d) ->
  make_square_blocks arr nc sizes = Ok out ->
  forall i j, (i < list_sum sizes)%nat -> (j < list_sum sizes)%nat ->
    nth j (nth i out []) d = nth i (nth j out []) d.
Proof.
  intros H1 H2 H3 HS HO i j Hi Hj. destruct (C33_entries arr nc sizes d H1 H2 H3) as (out' & HO' & _ & _ & HE & HB).
  rewrite HO in HO'. injection HO' as <-. destruct (HB i Hi) as [r Hr], (HB j Hj) as [s Hs].
  rewrite (HE i j r s Hr Hs), (HE j i s r Hs Hr). apply HS; [destruct Hr|destruct Hs]; lia.
Qed.

Theorem C33_mismatch {A} (arr : list (list A)) ncol sizes :
  (length arr <> ncol \/ length sizes <> length arr) -> make_square_blocks arr ncol sizes = Err ValueError.
Proof.
  intros H. unfold make_square_blocks. destruct (Nat.eqb_spec (length arr) ncol), (Nat.eqb_spec (length sizes) (length arr)); auto.
  lia.
Qed.

(* ------------------------------------------------------------------ *)
(** * C34 -- broadcasting of parameters *)

(** [b] is the result of broadcasting to the shape *)
Definition spread (a : nd) (shape : list nat) (entry : list nat -> R) : Prop :=
  exists b, convert_and_broadcast a shape = Ok b /\ nd_shape b = shape /\
    forall idx, Forall2 lt idx shape -> nd_at b idx = entry idx.

Lemma f2_1 idx n : Forall2 lt idx [n] -> exists k, idx = [k] /\ (k < n)%nat.
Proof. intros H. inversion H; subst. inversion H4; subst. eauto. Qed.
Lemma f2_2 idx n m : Forall2 lt idx [n; m] -> exists i j, idx = [i; j] /\ (i < n)%nat /\ (j < m)%nat.
Proof. intros H. inversion H; subst. apply f2_1 in H4. destruct H4 as (j & -> & Hj). eauto. Qed.

Theorem C34_vector a n :
  (nd_shape a = [] -> spread a [n] (fun _ => nd_at a [])) /\
  (nd_shape a = [1%nat] -> spread a [n] (fun _ => nd_at a [O])) /\
  (nd_shape a = [n] -> spread a [n] (fun idx => nd_at a idx)) /\
  (nd_shape a <> [] -> nd_shape a <> [1%nat] -> nd_shape a <> [n] ->
     convert_and_broadcast a [n] = Err ValueError).
Proof.
  unfold spread, convert_and_broadcast, broadcast_to, atleast_1d. repeat split.
  - intros ->. cbn [nd_shape rev app bc_ok]. rewrite orb_true_r. cbn [andb].
    eexists. split; [reflexivity|]. split; [reflexivity|]. reflexivity.
  - intros E. rewrite E. rewrite !E. cbn [rev app bc_ok]. rewrite orb_true_r. cbn [andb].
    eexists. split; [reflexivity|]. split; [reflexivity|]. intros idx Hi. apply f2_1 in Hi. destruct Hi as (k & -> & _). reflexivity.
  - intros E. rewrite E. rewrite !E. cbn [rev app bc_ok]. rewrite Nat.eqb_refl. cbn [andb orb].
    eexists. split; [reflexivity|]. split; [reflexivity|]. intros idx Hi. apply f2_1 in Hi. destruct Hi as (k & -> & Hk).
    cbn. destruct (Nat.eqb_spec n 1); [|reflexivity]. subst. repeat f_equal. lia.
  - intros N0 N1 Nn. destruct (nd_shape a) as [|m l] eqn:E; [congruence|]. rewrite !E.
    destruct l as [|m' l].
    + cbn [rev app bc_ok]. destruct (Nat.eqb_spec m n); [subst; congruence|].
      destruct (Nat.eqb_spec m 1); [subst; congruence|]. reflexivity.
    + cbn [rev app]. destruct (rev l ++ [m']) as [|x l'] eqn:El; [destruct (rev l); discriminate El|].
      cbn [bc_ok app]. destruct (l' ++ [m]) eqn:E2; [destruct l'; discriminate E2|]. now rewrite andb_false_r.
Qed.

Theorem C34_matrix a n :
  (nd_shape a = [] -> spread a [n; n] (fun _ => nd_at a [])) /\
  (nd_shape a = [1%nat] -> spread a [n; n] (fun _ => nd_at a [O])) /\
  (nd_shape a = [1%nat; 1%nat] -> spread a [n; n] (fun _ => nd_at a [O; O])) /\
  (* a vector or a single row is used as every row *)
  (nd_shape a = [n] -> spread a [n; n] (fun idx => nd_at a [nth 1 idx O])) /\
  (nd_shape a = [1%nat; n] -> spread a [n; n] (fun idx => nd_at a [O; nth 1 idx O])) /\
  (* a single column as every column *)
  (nd_shape a = [n; 1%nat] -> spread a [n; n] (fun idx => nd_at a [nth 0 idx O; O])) /\
  (nd_shape a = [n; n] -> spread a [n; n] (fun idx => nd_at a idx)) /\
  (~ In (nd_shape a) [[]; [1%nat]; [n]; [1%nat; 1%nat]; [1%nat; n]; [n; 1%nat]; [n; n]] ->
     convert_and_broadcast a [n; n] = Err ValueError).
Proof.
  assert (D : forall k, (k < n)%nat -> (if Nat.eqb n 1 then O else k) = k)
    by (intros k Hk; destruct (Nat.eqb_spec n 1); lia).
  unfold spread, convert_and_broadcast, broadcast_to, atleast_1d.
  split; [|split; [|split; [|split; [|split; [|split; [|split]]]]]]; intros E.
  8: {
    destruct (nd_shape a) as [|m l] eqn:Es; [exfalso; apply E; simpl; auto|]. rewrite !Es.
    destruct l as [|m' [|m'' l]].
    - cbn [rev app bc_ok]. destruct (Nat.eqb_spec m n); [subst; exfalso; apply E; simpl; auto|].
      destruct (Nat.eqb_spec m 1); [subst; exfalso; apply E; simpl; auto|]. reflexivity.
    - cbn [rev app bc_ok]. destruct (Nat.eqb_spec m n), (Nat.eqb_spec m 1), (Nat.eqb_spec m' n), (Nat.eqb_spec m' 1);
        try reflexivity; subst; exfalso; apply E; simpl; auto 10.
    - cbn [rev app]. destruct (rev l ++ [m'']) as [|x l1] eqn:E1; [destruct (rev l); discriminate E1|].
      cbn [app]. destruct (l1 ++ [m']) as [|y l2] eqn:E2; [destruct l1; discriminate E2|]. cbn [app bc_ok].
      destruct (l2 ++ [m]) as [|z l3] eqn:E3; [destruct l2; discriminate E3|]. cbn [bc_ok]. now rewrite !andb_false_r. }
  all: rewrite E; cbn [nd_shape]; rewrite ?E; cbn [rev app bc_ok]; rewrite ?Nat.eqb_refl, ?orb_true_r; cbn [andb orb];
    eexists; (split; [reflexivity|]); (split; [reflexivity|]); intros idx Hi; apply f2_2 in Hi;
    destruct Hi as (i & j & -> & Hi & Hj); cbn [nd_at rev app bc_idx nth Nat.eqb]; rewrite ?D by auto; reflexivity.
Qed.

(** The stored arrays are fresh: no array that existed before is changed by
    the call or shared with the result. *)
Definition fresh_result (s s' : store) (c : nat) : Prop :=
  (st_next s <= c < st_next s')%nat /\ forall a, (a < st_next s)%nat -> st_cell s' a = st_cell s a.

Lemma alloc_fresh s c : fresh_result s (fst (alloc s c)) (snd (alloc s c)).
Proof.
  unfold fresh_result, alloc. cbn. split; [lia|]. intros a Ha. unfold upd. destruct (Nat.eqb_spec a (st_next s)); [lia|auto].
Qed.

Lemma write_other s a i j x b : b <> a -> st_cell (fst (write s a i j x)) b = st_cell s b.
Proof.
  intros H. unfold write. destruct (z_writeable _); [|reflexivity]. cbn. unfold upd.
  destruct (Nat.eqb_spec b a); [congruence|reflexivity].
Qed.

Theorem C34_fresh s :
  (forall nc a s' o, fh_new s nc a = Ok (s', o) -> fresh_result s s' (fo_chis o)) /\
  (forall o a s' o', fh_set_chis s o a = Ok (s', o') -> fresh_result s s' (fo_chis o')) /\
  (forall o t a s' o', ig_set_sizes s o t a = Ok (s', o') -> fresh_result s s' (go_sizes o')) /\
  (forall o t a s' o', can_set_means s o t a = Ok (s', o') -> fresh_result s s' (co_means o')) /\
  (forall o t a s' o', gc_set_act s o t a = Ok (s', o') -> fresh_result s s' (xo_act o')) /\
  (forall nf C T s' o, lin_new s nf C T = Ok (s', o) -> fresh_result s s' (lo_Cs o) /\ fresh_result s s' (lo_Ts o)) /\
  (* hence writing into an older array cannot reach them *)
  (forall s' c a i j x, fresh_result s s' c -> (a < st_next s)%nat ->
     st_cell (fst (write s' a i j x)) c = st_cell s' c).
Proof.
  repeat split.
  all: try (intros; match goal with H : fresh_result _ _ _ |- _ => destruct H end; apply write_other; lia).
  all: intros; repeat match goal with
    | H : fh_new _ _ _ = _ |- _ => unfold fh_new, fh_symmetric in H
    | H : fh_set_chis _ _ _ = _ |- _ => unfold fh_set_chis, fh_symmetric in H
    | H : ig_set_sizes _ _ _ _ = _ |- _ => unfold ig_set_sizes in H
    | H : can_set_means _ _ _ _ = _ |- _ => unfold can_set_means in H
    | H : gc_set_act _ _ _ _ = _ |- _ => unfold gc_set_act in H
    | H : lin_new _ _ _ _ = _ |- _ => unfold lin_new, lin_set_Cs, lin_set_Ts in H
    | H : context [match nd_shape ?x with _ => _ end] |- _ =>
        destruct (nd_shape x) as [|? [|? [|? ?]]]; cbn [bind] in H; try discriminate H
    | H : context [convert_and_broadcast ?x ?y] |- _ =>
        destruct (convert_and_broadcast x y); cbn in H; [|discriminate H]
    | H : Ok _ = Ok _ |- _ => injection H as <- <-
    | H : (let '(_, _) := _ in _) = Ok _ |- _ => cbn in H
    end; cbn in *; unfold upd; try lia.
  all: repeat match goal with |- context [Nat.eqb ?a ?b] => destruct (Nat.eqb_spec a b); try lia; auto end.
Qed.

(* ------------------------------------------------------------------ *)
(** * C35 -- the interaction matrix is always symmetric *)

Section Chis.
Context {G : Type} (ops : rng_ops G).

Inductive chi_op :=
| OChis (a : nd)
| OUniform (t : dtype) (chi : R) (vanishing : bool)
| ORandom (mean std : R) (vanishing : bool) (g : G).

(** one call; a failing call leaves what it leaves *)
Definition chi_do (so : store * fho) (x : chi_op) : store * fho :=
  let '(s, o) := so in
  match x with
  | OChis a => match fh_set_chis s o a with Ok so' => so' | Err _ => so end
  | OUniform t chi v => fh_set_uniform s o t chi v
  | ORandom mean std v g => let '(s', _, _) := fh_set_random ops s o mean std v g in (s', o)
  end.
Definition chi_run (so : store * fho) (xs : list chi_op) : store * fho := fold_left chi_do xs so.

(** the current matrix *)
Definition chis_of (so : store * fho) : mat := z_at (st_cell (fst so) (fo_chis (snd so))).
Definition symmetric (A : mat) : Prop := forall i j, A i j = A j i.

Lemma upd2_sym_pairs vals ps : forall A i j, ~ In (i, j) ps -> assign_pairs A ps vals i j = A i j.
Proof.
  unfold assign_pairs. revert vals. induction ps as [|[k l] ps IH]; intros [|v vals] A i j H; auto.
  cbn [combine fold_left]. rewrite IH by (intros H'; apply H; now right). unfold upd2.
  destruct (Nat.eqb_spec i k), (Nat.eqb_spec j l); auto. subst. exfalso. apply H. now left.
Qed.

Lemma assign_pairs_nth vals : forall ps A m i j, NoDup ps -> length vals = length ps -> nth_error ps m = Some (i, j) ->
  assign_pairs A ps vals i j = nth m vals 0.
Proof.
  induction vals as [|v vals IH]; intros [|[k l] ps] A m i j ND HL Hm; try discriminate HL; [destruct m; discriminate Hm|].
  inversion ND; subst. unfold assign_pairs. cbn [combine fold_left]. destruct m as [|m].
  - injection Hm as -> ->. change (assign_pairs (upd2 A i j v) ps vals i j = v). rewrite upd2_sym_pairs by auto.
    unfold upd2. now rewrite !Nat.eqb_refl.
  - cbn [nth]. change (assign_pairs (upd2 A k l v) ps vals i j = nth m vals 0). eapply IH; eauto.
Qed.

Lemma triu_In n k i j : In (i, j) (triu n k) <-> (i + k <= j < n)%nat.
Proof.
  unfold triu. rewrite in_flat_map. split.
  - intros (x & Hx & Hp). apply in_map_iff in Hp. destruct Hp as (y & E & Hy). injection E as -> ->.
    apply in_seq in Hx, Hy. lia.
  - intros H. exists i. split; [apply in_seq; lia|]. apply in_map_iff. exists j. split; auto. apply in_seq. lia.
Qed.

Lemma triu_NoDup n k : NoDup (triu n k).
Proof.
  unfold triu. generalize (seq_NoDup n 0). generalize (seq 0 n). induction l as [|i l IH]; intros ND; cbn [flat_map]; [constructor|].
  inversion ND; subst. specialize (IH H2).
  assert (H : forall m, NoDup m -> NoDup (map (fun j : nat => (i, j)) m ++ flat_map (fun i => map (fun j => (i, j)) (seq (i + k) (n - (i + k)))) l)).
  { induction m as [|x m IHm]; intros Hm; cbn [map app]; [exact IH|]. inversion Hm; subst. constructor; [|auto].
    rewrite in_app_iff. intros [H|H].
    - apply in_map_iff in H. destruct H as (y & E & Hy). congruence.
    - apply in_flat_map in H. destruct H as (y & Hy & H). apply in_map_iff in H. destruct H as (z & E & _).
      congruence. }
  apply H. apply seq_NoDup.
Qed.

Lemma triu_length n : (length (triu n 1) = n * (n - 1) / 2 /\ length (triu n 0) = n * (n + 1) / 2)%nat.
Proof.
  assert (H : forall k, length (triu n k) = list_sum (map (fun i => n - (i + k))%nat (seq 0 n))).
  { intros k. unfold triu. generalize (seq 0 n). induction l; cbn [flat_map map]; [reflexivity|].
    rewrite app_length, map_length, seq_length, IHl. reflexivity. }
  assert (A : forall m, (m <= n)%nat -> (2 * list_sum (map (fun i => n - (i + 1))%nat (seq 0 m)) + m * (m + 1) = 2 * n * m)%nat).
  { induction m; intros Hm; [simpl; lia|]. rewrite seq_S, map_app, list_sum_app. cbn [map list_sum fold_right].
    specialize (IHm ltac:(lia)). change (0 + m)%nat with m. nia. }
  assert (B : forall m, (m <= n)%nat -> (2 * list_sum (map (fun i => n - (i + 0))%nat (seq 0 m)) + m * m = (2 * n + 1) * m)%nat).
  { induction m; intros Hm; [simpl; lia|]. rewrite seq_S, map_app, list_sum_app. cbn [map list_sum fold_right].
    specialize (IHm ltac:(lia)). change (0 + m)%nat with m. nia. }
  rewrite !H. specialize (A n (le_n n)). specialize (B n (le_n n)). split.
  - apply Nat.div_unique with (r := 0%nat); [lia|]. destruct n; [lia|]. nia.
  - apply Nat.div_unique with (r := 0%nat); [lia|]. nia.
Qed.

Lemma normals_length n mean std g : length (fst (normals ops n mean std g)) = n.
Proof.
  revert g. induction n; intros g; [reflexivity|]. cbn [normals].
  destruct (g_normal ops g mean std) as [x g1]. specialize (IHn g1).
  destruct (normals ops n mean std g1). simpl in *. lia.
Qed.

(** everything about one successful set_random_chis *)
Lemma set_random_spec s o mean std (v : bool) g : 0 <= std ->
  let ps := triu (fo_nc o) (if v then 1 else 0)%nat in
  exists vals s', fh_set_random ops s o mean std v g = (s', snd (normals ops (length ps) mean std g), None) /\
    vals = fst (normals ops (length ps) mean std g) /\ length vals = length ps /\
    st_next s' = st_next s /\ (forall a, a <> fo_chis o -> st_cell s' a = st_cell s a) /\
    z_type (st_cell s' (fo_chis o)) = z_type (st_cell s (fo_chis o)) /\
    z_writeable (st_cell s' (fo_chis o)) = z_writeable (st_cell s (fo_chis o)) /\
    (forall m i j, nth_error ps m = Some (i, j) ->
       z_at (st_cell s' (fo_chis o)) i j = cast (z_type (st_cell s (fo_chis o))) (nth m vals 0) /\
       z_at (st_cell s' (fo_chis o)) j i = cast (z_type (st_cell s (fo_chis o))) (nth m vals 0)) /\
    (forall i j, ~ In (i, j) ps -> ~ In (j, i) ps ->
       z_at (st_cell s' (fo_chis o)) i j = cast (z_type (st_cell s (fo_chis o))) (cast (z_type (st_cell s (fo_chis o))) 0)).
Proof.
  intros Hstd ps. unfold fh_set_random. rewrite (proj2 (Rltb_false std 0)) by lra.
  assert (HN : (if v then (fo_nc o * (fo_nc o - 1) / 2)%nat else (fo_nc o * (fo_nc o + 1) / 2)%nat) = length ps).
  { destruct (triu_length (fo_nc o)) as [H1 H2]. unfold ps. destruct v; auto. }
  rewrite HN. pose proof (normals_length (length ps) mean std g) as HV.
  destruct (normals ops (length ps) mean std g) as [vals g'] eqn:EN. cbn [fst snd] in *. fold ps.
  do 2 eexists. split; [reflexivity|]. split; [reflexivity|]. split; [exact HV|].
  cbn [overwrite st_next st_cell]. unfold upd at 1 2. split; [reflexivity|]. split.
  { intros a Ha. unfold upd. destruct (Nat.eqb_spec a (fo_chis o)); [congruence|reflexivity]. }
  unfold upd. rewrite !Nat.eqb_refl. cbn [z_type z_writeable z_at]. split; [reflexivity|]. split; [reflexivity|].
  set (t := z_type (st_cell s (fo_chis o))). set (A0 := fun _ _ : nat => cast t 0).
  assert (NDs : NoDup (map swap_pair ps)).
  { apply FinFun.Injective_map_NoDup; [|apply triu_NoDup]. intros [a b] [c d] E. unfold swap_pair in E. simpl in E. congruence. }
  assert (Hsw : forall i j, In (i, j) (map swap_pair ps) <-> In (j, i) ps).
  { intros i j. rewrite in_map_iff. split.
    - intros ([a b] & E & H). unfold swap_pair in E. simpl in E. congruence.
    - intros H. exists (j, i). auto. }
  split.
  - intros m i j Hm. assert (Hin : In (i, j) ps) by (eapply nth_error_In; eauto).
    assert (Hm' : nth_error (map swap_pair ps) m = Some (j, i)) by (now rewrite (map_nth_error swap_pair m ps Hm)).
    split; f_equal.
    + destruct (Nat.eq_dec i j) as [->|Nij].
      * eapply assign_pairs_nth; eauto. now rewrite map_length.
      * rewrite upd2_sym_pairs.
        -- eapply assign_pairs_nth; eauto. apply triu_NoDup.
        -- rewrite Hsw. intros H. unfold ps in H, Hin. apply triu_In in H. apply triu_In in Hin. destruct v; lia.
    + eapply assign_pairs_nth; eauto. now rewrite map_length.
  - intros i j H1 H2. f_equal. rewrite upd2_sym_pairs by now rewrite Hsw. now rewrite upd2_sym_pairs.
Qed.

Lemma trunc_0 : trunc 0 = 0.
Proof.
  unfold trunc. rewrite (proj2 (Rltb_false 0 0)) by lra.
  assert (H : Int_part 0 = 0%Z) by (unfold Int_part; rewrite <- (tech_up 0 1); simpl; lra || reflexivity).
  now rewrite H.
Qed.

Lemma cast_0 t : cast t 0 = 0.
Proof. destruct t; [apply trunc_0|reflexivity]. Qed.

Definition pair_dec (a b : nat * nat) : {a = b} + {a <> b}.
Proof. decide equality; apply Nat.eq_dec. Defined.

Definition chi_ok (so : store * fho) : Prop := symmetric (chis_of so) /\ (fo_chis (snd so) < st_next (fst so))%nat.

Lemma fh_symmetric_ok s nc a s' c : fh_symmetric s nc a = Ok (s', c) ->
  symmetric (z_at (st_cell s' c)) /\ (c < st_next s')%nat.
Proof.
  unfold fh_symmetric. destruct (convert_and_broadcast a [nc; nc]) as [b|]; [|discriminate 1]. cbn [bind].
  unfold alloc. intros H. injection H as <- <-. cbn. unfold upd. rewrite Nat.eqb_refl. cbn.
  split; [|lia]. intros i j. unfold symmetrize. ring.
Qed.

(** [A i j = A j i] after every call *)
Lemma chi_do_ok so x : chi_ok so -> chi_ok (chi_do so x).
Proof.
  destruct so as [s o]. intros [HS HA]. destruct x as [a|t chi v|mean std v g]; cbn [chi_do].
  - unfold fh_set_chis. destruct (fh_symmetric s (fo_nc o) a) as [[s' c]|] eqn:E; cbn [bind]; [|split; auto].
    unfold chi_ok, chis_of. cbn. now apply fh_symmetric_ok in E.
  - unfold fh_set_uniform, chi_ok, chis_of. cbn. unfold upd. rewrite Nat.eqb_refl. cbn. split; [|lia].
    intros i j. rewrite (Nat.eqb_sym i j). reflexivity.
  - destruct (Rlt_dec std 0) as [Hn|Hn].
    + unfold fh_set_random. rewrite (proj2 (Rltb_true std 0)) by auto. unfold chi_ok, chis_of. cbn. split; [|exact HA].
      intros i j. unfold upd. now rewrite Nat.eqb_refl.
    + destruct (set_random_spec s o mean std v g) as (vals & s' & E & _ & _ & N & _ & _ & _ & HP & HO); [lra|].
      rewrite E. unfold chi_ok, chis_of. cbn [fst snd]. split; [|simpl in HA; lia]. intros i j.
      destruct (in_dec pair_dec (i, j) (triu (fo_nc o) (if v then 1 else 0)%nat)) as [H1|H1].
      * apply In_nth_error in H1. destruct H1 as [m Hm]. destruct (HP m i j Hm) as [-> ->]. reflexivity.
      * destruct (in_dec pair_dec (j, i) (triu (fo_nc o) (if v then 1 else 0)%nat)) as [H2|H2].
        -- apply In_nth_error in H2. destruct H2 as [m Hm]. destruct (HP m j i Hm) as [-> ->]. reflexivity.
        -- rewrite !HO; auto.
Qed.

Theorem C35_symmetric s nc a s1 o xs : fh_new s nc a = Ok (s1, o) ->
  symmetric (chis_of (chi_run (s1, o) xs)).
Proof.
  intros H. assert (H0 : chi_ok (s1, o)).
  { unfold fh_new in H. destruct (fh_symmetric s nc a) as [[s' c]|] eqn:E; [|discriminate H]. cbn [bind] in H.
    injection H as <- <-. unfold chi_ok, chis_of. cbn. now apply fh_symmetric_ok in E. }
  enough (HK : chi_ok (chi_run (s1, o) xs)) by apply HK.
  unfold chi_run. revert H0. generalize (s1, o). induction xs as [|x xs IH]; intros so Hso; cbn [fold_left]; auto.
  apply IH. now apply chi_do_ok.
Qed.

(** A symmetric matrix of the right shape is stored as it is, by the
    constructor and by the setter; an asymmetric one becomes (A + A.T)/2. *)
Theorem C35_stored s nc a : nd_shape a = [nc; nc] ->
  exists s1 o, fh_new s nc a = Ok (s1, o) /\ fo_nc o = nc /\
    (forall i j, (i < nc)%nat -> (j < nc)%nat ->
       chis_of (s1, o) i j = (nd_at a [i; j] + nd_at a [j; i]) / 2) /\
    ((forall i j, (i < nc)%nat -> (j < nc)%nat -> nd_at a [i; j] = nd_at a [j; i]) ->
     forall i j, (i < nc)%nat -> (j < nc)%nat -> chis_of (s1, o) i j = nd_at a [i; j]).
Proof.
  intros Ha. destruct (C34_matrix a nc) as (_ & _ & _ & _ & _ & _ & H & _). destruct (H Ha) as (b & Eb & _ & Hb).
  unfold fh_new, fh_symmetric. rewrite Eb. cbn [bind alloc].
  do 2 eexists. split; [reflexivity|]. split; [reflexivity|].
  assert (HE : forall i j, (i < nc)%nat -> (j < nc)%nat -> mat_of_nd b i j = nd_at a [i; j]).
  { intros i j Hi Hj. unfold mat_of_nd. apply Hb. repeat constructor; auto. }
  unfold chis_of. cbn. unfold upd. rewrite Nat.eqb_refl. cbn. unfold symmetrize. split.
  - intros i j Hi Hj. rewrite !HE by auto. lra.
  - intros HS i j Hi Hj. rewrite !HE by auto. rewrite (HS j i) by auto. lra.
Qed.

Theorem C35_setter_stored s o a : nd_shape a = [fo_nc o; fo_nc o] ->
  (forall i j, (i < fo_nc o)%nat -> (j < fo_nc o)%nat -> nd_at a [i; j] = nd_at a [j; i]) ->
  exists s1 o1, fh_set_chis s o a = Ok (s1, o1) /\ fo_nc o1 = fo_nc o /\
    forall i j, (i < fo_nc o)%nat -> (j < fo_nc o)%nat -> chis_of (s1, o1) i j = nd_at a [i; j].
Proof.
  intros Ha HS. destruct (C35_stored s (fo_nc o) a Ha) as (s1 & o1 & E & N & _ & H).
  unfold fh_new in E. unfold fh_set_chis. destruct (fh_symmetric s (fo_nc o) a) as [[s' c]|]; [|discriminate E].
  cbn [bind] in *. injection E as <- <-. do 2 eexists. split; [reflexivity|]. split; [reflexivity|]. exact (H HS).
Qed.

(** the diagonal after set_uniform_chis and set_random_chis *)
Theorem C35_diagonal s o :
  (forall t chi i, chis_of (fh_set_uniform s o t chi true) i i = 0) /\
  (forall t chi v i j, i <> j -> chis_of (fh_set_uniform s o t chi v) i j = cast t chi) /\
  (forall mean std g i, 0 <= std ->
     chis_of (chi_do (s, o) (ORandom mean std true g)) i i = 0).
Proof.
  split; [|split].
  - intros t chi i. unfold chis_of, fh_set_uniform. cbn. unfold upd. rewrite Nat.eqb_refl. cbn. now rewrite Nat.eqb_refl.
  - intros t chi v i j Hij. unfold chis_of, fh_set_uniform. cbn. unfold upd. rewrite Nat.eqb_refl. cbn.
    destruct (Nat.eqb_spec i j); [congruence|]. now rewrite andb_false_r.
  - intros mean std g i Hs. cbn [chi_do].
    destruct (set_random_spec s o mean std true g Hs) as (vals & s' & E & _ & _ & _ & _ & _ & _ & _ & HO).
    rewrite E. unfold chis_of. cbn [fst snd]. rewrite HO; [now rewrite !cast_0| |]; rewrite triu_In; lia.
Qed.

(** A negative standard deviation raises ValueError, but only after the old
    matrix has been erased. *)
Theorem C35_failed_random_erases s o mean std v g : std < 0 ->
  exists s', fh_set_random ops s o mean std v g = (s', g, Some ValueError) /\
    forall i j, chis_of (s', o) i j = 0.
Proof.
  intros H. unfold fh_set_random. rewrite (proj2 (Rltb_true std 0)) by auto. eexists. split; [reflexivity|].
  intros i j. unfold chis_of. cbn. unfold upd. rewrite Nat.eqb_refl. cbn. apply cast_0.
Qed.

(* ------------------------------------------------------------------ *)
(** * C36 -- set_random_chis uses the drawn values *)

(** the calls that leave a float matrix *)
Definition float_op (x : chi_op) : Prop := match x with OUniform DInt _ _ => False | _ => True end.

Lemma float_kept so xs : z_type (st_cell (fst so) (fo_chis (snd so))) = DFloat -> Forall float_op xs ->
  z_type (st_cell (fst (chi_run so xs)) (fo_chis (snd (chi_run so xs)))) = DFloat.
Proof.
  unfold chi_run. revert so. induction xs as [|x xs IH]; intros [s o] HT HF; cbn [fold_left]; auto.
  inversion HF as [|? ? Hx HF']; subst. apply IH; auto. destruct x as [a|t chi v|mean std v g]; cbn [chi_do].
  - unfold fh_set_chis, fh_symmetric. destruct (convert_and_broadcast a _); cbn [bind alloc]; [|exact HT].
    cbn. unfold upd. now rewrite Nat.eqb_refl.
  - unfold fh_set_uniform. cbn. unfold upd. rewrite Nat.eqb_refl. destruct t; [contradiction|reflexivity].
  - destruct (Rlt_dec std 0) as [Hn|Hn].
    + unfold fh_set_random. rewrite (proj2 (Rltb_true std 0)) by auto. cbn. unfold upd. rewrite Nat.eqb_refl. exact HT.
    + destruct (set_random_spec s o mean std v g) as (vals & s' & E & _ & _ & _ & _ & T & _); [lra|].
      rewrite E. cbn [fst snd]. rewrite T. exact HT.
Qed.

(** After any history without an integer set_uniform_chis: the m-th number
    drawn stands at the m-th position of the upper triangle (row by row) and
    at the mirrored one. *)
Theorem C36_draws s nc a s1 o xs mean std (v : bool) g : fh_new s nc a = Ok (s1, o) -> Forall float_op xs -> 0 <= std ->
  let so := chi_run (s1, o) xs in
  let ps := triu nc (if v then 1 else 0)%nat in
  let vals := fst (normals ops (length ps) mean std g) in
  length vals = length ps /\
  (forall i j, In (i, j) ps <-> (i + (if v then 1 else 0)%nat <= j < nc)%nat) /\
  forall m i j, nth_error ps m = Some (i, j) ->
    chis_of (chi_do so (ORandom mean std v g)) i j = nth m vals 0 /\
    chis_of (chi_do so (ORandom mean std v g)) j i = nth m vals 0.
Proof.
  intros H HF Hstd so ps vals.
  assert (HT : z_type (st_cell (fst so) (fo_chis (snd so))) = DFloat).
  { apply float_kept; auto. unfold fh_new, fh_symmetric in H. destruct (convert_and_broadcast a _); [|discriminate H].
    cbn [bind alloc] in H. injection H as <- <-. cbn. unfold upd. now rewrite Nat.eqb_refl. }
  assert (HN : fo_nc (snd so) = nc).
  { unfold fh_new in H. destruct (fh_symmetric s nc a) as [[s' c]|]; [|discriminate H]. cbn [bind] in H. injection H as <- <-.
    unfold so, chi_run. clear. assert (G0 : forall so, fo_nc (snd (fold_left chi_do xs so)) = fo_nc (snd so)).
    { induction xs as [|x xs IH]; intros [s1 o]; cbn [fold_left]; auto. rewrite IH. destruct x; cbn [chi_do].
      - unfold fh_set_chis. destruct (fh_symmetric _ _ _) as [[? ?]|]; reflexivity.
      - reflexivity.
      - destruct (fh_set_random _ _ _ _ _ _ _) as [[? ?] ?]. reflexivity. }
    now rewrite G0. }
  split; [apply normals_length|]. split; [intros; apply triu_In|].
  intros m i j Hm. destruct so as [s2 o2] eqn:Eso. cbn [chi_do]. cbn [fst snd] in *.
  destruct (set_random_spec s2 o2 mean std v g Hstd) as (vals' & s' & E & EV & _ & _ & _ & _ & _ & HP & _).
  rewrite E. unfold chis_of. cbn [fst snd]. rewrite HN in *. fold ps in EV, HP. fold vals in EV. subst vals'.
  destruct (HP m i j Hm) as [-> ->]. rewrite HT. auto.
Qed.
End Chis.

(** False in general: an integer set_uniform_chis before it makes the draws
    lose their fractional part. *)
Theorem C36_draws_refuted {G} (ops : rng_ops G) (g : G) :
  (forall mean std g, fst (g_normal ops g mean std) = 1 / 2) ->
  exists s1 o, fh_new {| st_next := 0; st_cell := fun _ => floats (fun _ _ => 0) |} 2 (scalar 0) = Ok (s1, o) /\
    let so := chi_run ops (s1, o) [OUniform DInt 3 true] in
    chis_of (chi_do ops so (ORandom 0 1 true g)) 0%nat 1%nat = 0 /\
    fst (normals ops 1 0 1 g) = [1 / 2].
Proof.
  intros HG. unfold fh_new, fh_symmetric.
  destruct (C34_matrix (scalar 0) 2) as (H & _). destruct (H eq_refl) as (b & -> & _). cbn [bind alloc].
  do 2 eexists. split; [reflexivity|]. split.
  - match goal with |- context [chi_do _ ?S _] => set (so := S) end.
    destruct (set_random_spec ops (fst so) (snd so) 0 1 true g) as (vals & s' & E & EV & _ & _ & _ & _ & _ & HP & _); [lra|].
    change (chi_do ops so (ORandom 0 1 true g)) with
      (let '(s', _, _) := fh_set_random ops (fst so) (snd so) 0 1 true g in (s', snd so)).
    rewrite E. unfold chis_of. cbn [fst snd].
    destruct (HP 0%nat 0%nat 1%nat eq_refl) as [-> _]. subst vals. cbn. unfold upd. cbn.
    pose proof (HG 0 1 g) as H1. destruct (g_normal ops g 0 1) as [x g1]. cbn in H1. subst x. cbn.
    unfold trunc. rewrite (proj2 (Rltb_false (1 / 2) 0)) by lra.
    assert (HI : Int_part (1 / 2) = 0%Z) by (unfold Int_part; rewrite <- (tech_up (1 / 2) 1); simpl; lra || reflexivity).
    now rewrite HI.
  - cbn. pose proof (HG 0 1 g) as H1. destruct (g_normal ops g 0 1) as [x g1]. cbn in *. now subst.
Qed.

(* ------------------------------------------------------------------ *)
(** * C37 -- block interactions *)

Definition nearly_symmetric (n : nat) (A : mat) : Prop :=
  forall i j, (i < n)%nat -> (j < n)%nat -> Rabs (A i j - A j i) <= 1 / 100000000 + 1 / 100000 * Rabs (A j i).

Lemma allclose_spec n A : allclose_T n A = true <-> nearly_symmetric n A.
Proof.
  unfold allclose_T, nearly_symmetric. rewrite Nat.eqb_eq.
  assert (Z : forall k (p : nat -> bool), ncount k p = O <-> forall i, (i < k)%nat -> p i = false).
  { induction k as [|k IH]; intros p; cbn [ncount]; [split; [lia|auto]|]. split.
    - intros H i Hi. destruct (Nat.eq_dec i k) as [->|].
      + destruct (p k); [lia|reflexivity].
      + apply (IH p); [destruct (p k); lia|lia].
    - intros H. rewrite (H k) by lia. rewrite (proj2 (IH p)); auto. }
  rewrite Z. split.
  - intros H i j Hi Hj. specialize (H i Hi). apply negb_false_iff, Nat.eqb_eq in H. rewrite Z in H.
    specialize (H j Hj). apply negb_false_iff in H. now apply Rleb_true.
  - intros H i Hi. apply negb_false_iff, Nat.eqb_eq. rewrite Z. intros j Hj. apply negb_false_iff, Rleb_true. auto.
Qed.

(** The intended constructor behaviour holds for (nearly) symmetric input:
    the feature matrix is the symmetrised input, the component matrix its
    expansion. *)
Theorem C37_constructor s nf a npf : nd_shape a = [nf; nf] -> length npf = nf ->
  nearly_symmetric nf (mat_of_nd a) ->
  exists s1 o, block_new s nf a npf = Ok (s1, o) /\ bo_nc o = list_sum npf /\
    (forall r t, (r < nf)%nat -> (t < nf)%nat ->
       z_at (st_cell s1 (bo_feat o)) r t = (nd_at a [r; t] + nd_at a [t; r]) / 2) /\
    (forall i j r t, in_block npf r i -> in_block npf t j ->
       z_at (st_cell s1 (bo_chis o)) i j = z_at (st_cell s1 (bo_feat o)) r t).
Proof.
  intros Ha HL HS. unfold block_new. rewrite HL, Nat.eqb_refl. cbn [negb].
  destruct (C34_matrix a nf) as (_ & _ & _ & _ & _ & _ & H & _). destruct (H Ha) as (b & Eb & _ & Hb). rewrite Eb. cbn [bind].
  assert (HE : forall i j, (i < nf)%nat -> (j < nf)%nat -> mat_of_nd b i j = nd_at a [i; j]).
  { intros i j Hi Hj. unfold mat_of_nd. apply Hb. repeat constructor; auto. }
  assert (HC : allclose_T nf (mat_of_nd b) = true).
  { apply allclose_spec. intros i j Hi Hj. rewrite !HE by auto. now apply HS. }
  rewrite HC. cbn [bind alloc st_next]. do 2 eexists. split; [reflexivity|]. split; [reflexivity|].
  cbn [st_cell bo_feat bo_chis]. unfold upd. rewrite !Nat.eqb_refl.
  destruct (Nat.eqb_spec (st_next s) (S (st_next s))); [lia|]. cbn [z_at floats]. split.
  - intros r t Hr Ht. unfold symmetrize. rewrite !HE by auto. lra.
  - intros i j r t Hi Hj.
    assert (Bl : forall q k, in_block npf q k -> block_of npf k = q).
    { intros q k Hk. eapply in_block_unique; [|exact Hk]. apply block_of_in. destruct Hk as [K1 K2].
      clear -K1 K2. unfold offset in K2. revert q k K1 K2. induction npf as [|n l IH]; intros [|q] k K1 K2; simpl in *; try lia.
      specialize (IH q (k - n)%nat ltac:(lia)). unfold list_sum in *. lia. }
    unfold symmetrize. rewrite (Bl r i Hi), (Bl t j Hj). lra.
Qed.

(** An asymmetric matrix is not symmetrised: the constructor fails. *)
Theorem C37_asymmetric_refuted s nf a npf : nd_shape a = [nf; nf] -> length npf = nf ->
  ~ nearly_symmetric nf (mat_of_nd a) -> block_new s nf a npf = Err AttributeError.
Proof.
  intros Ha HL HS. unfold block_new. rewrite HL, Nat.eqb_refl. cbn [negb].
  destruct (C34_matrix a nf) as (_ & _ & _ & _ & _ & _ & H & _). destruct (H Ha) as (b & Eb & _ & Hb). rewrite Eb. cbn [bind].
  destruct (allclose_T nf (mat_of_nd b)) eqn:E; [|reflexivity]. exfalso. apply HS. apply allclose_spec in E.
  intros i j Hi Hj. specialize (E i j Hi Hj). unfold mat_of_nd in *. rewrite !Hb in E by (repeat constructor; auto). exact E.
Qed.

(** The setter never succeeds, whatever is assigned. *)
Theorem C37_setter_refuted s o a : block_set_feat s o a = Err AttributeError.
Proof. reflexivity. Qed.

(* ------------------------------------------------------------------ *)
(** * C55 -- the finder owns its data *)

Section Owner.
Context {G : Type} (ops : rng_ops G).
Implicit Types (u : world).

Definition int_arrays (o : int_obj) : list nat :=
  match o with UFH f => [fo_chis f] | UBlock b => [bo_feat b; bo_chis b] end.
Definition ens_array (o : ens_obj) : nat := match o with UCan c => co_means c | UGC c => xo_act c end.
Definition other_arrays u : list nat := [go_sizes (u_ent u); ens_array (u_ens u); lo_Cs (u_lin u); lo_Ts (u_lin u)].

(** The objects' arrays exist and are visible to the user; the matrix of a
    Flory-Huggins interaction is writeable and no other object's array; the
    means of a canonical ensemble are a read-only view. *)
Record world_ok u : Prop := {
  wo_exposed : forall a, In a (u_exposed u) -> (a < st_next (u_store u))%nat;
  wo_int : incl (int_arrays (u_int u)) (u_exposed u);
  wo_other : incl (other_arrays u) (u_exposed u);
  wo_chis : forall f, u_int u = UFH f -> z_writeable (st_cell (u_store u) (fo_chis f)) = true;
  wo_means : forall c, u_ens u = UCan c -> z_writeable (st_cell (u_store u) (co_means c)) = false
}.

(** the user cannot change this array *)
Definition protected u (a : nat) : Prop :=
  (a < st_next (u_store u))%nat /\ (~ In a (u_exposed u) \/ z_writeable (st_cell (u_store u) a) = false).

(** one step: no protected cell changes *)
Lemma act_protected u x a : world_ok u -> protected u a ->
  protected (act ops u x) a /\ st_cell (u_store (act ops u x)) a = st_cell (u_store u) a.
Proof.
  intros W [Ha HP].
  assert (Alloc : forall c, protected (with_store u (fst (alloc (u_store u) c)) [snd (alloc (u_store u) c)]) a /\
             st_cell (fst (alloc (u_store u) c)) a = st_cell (u_store u) a).
  { intros c. assert (E : st_cell (fst (alloc (u_store u) c)) a = st_cell (u_store u) a).
    { cbn. unfold upd. destruct (Nat.eqb_spec a (st_next (u_store u))); [lia|auto]. }
    split; [|exact E]. split; [cbn; lia|]. change (u_store (with_store u (fst (alloc (u_store u) c)) [snd (alloc (u_store u) c)])) with (fst (alloc (u_store u) c)).
    rewrite E. destruct HP as [HP|HP]; [left|now right].
    cbn. intros [H|H]; [lia|auto]. }
  assert (Id : protected u a /\ st_cell (u_store u) a = st_cell (u_store u) a) by (split; [split|]; auto).
  destruct x; cbn [act].
  - destruct (u_int u) as [o|o]; [|exact Id]. unfold fh_set_chis, fh_symmetric.
    destruct (convert_and_broadcast _ _); [|exact Id]. exact (Alloc _).
  - destruct (u_int u) as [o|o]; [|exact Id]. exact (Alloc _).
  - destruct (u_int u) as [o|o] eqn:EI; [|exact Id].
    assert (Hne : a <> fo_chis o).
    { intros ->. destruct HP as [HP|HP].
      - apply HP. apply (wo_int u W). rewrite EI. cbn. auto.
      - rewrite (wo_chis u W o EI) in HP. discriminate HP. }
    assert (HX : exists s', fst (fst (fh_set_random ops (u_store u) o mean std vanishing g)) = s' /\
              st_next s' = st_next (u_store u) /\ st_cell s' a = st_cell (u_store u) a).
    { destruct (Rlt_dec std 0) as [Hn|Hn].
      - unfold fh_set_random. rewrite (proj2 (Rltb_true std 0)) by auto. eexists. split; [reflexivity|].
        cbn. split; [reflexivity|]. unfold upd. destruct (Nat.eqb_spec a (fo_chis o)); [congruence|reflexivity].
      - destruct (set_random_spec ops (u_store u) o mean std vanishing g) as (vals & s' & E & _ & _ & N & F & _); [lra|].
        rewrite E. cbn [fst]. eexists. split; [reflexivity|]. split; auto. }
    destruct HX as (s' & E & N & F). destruct (fh_set_random _ _ _ _ _ _ _) as [[s2 g2] e2]. cbn [fst] in E. subst s2.
    cbn. split; [split|exact F]; cbn; rewrite ?N, ?F; auto.
  - destruct (u_int u) as [o|o]; exact Id.
  - unfold ig_set_sizes. destruct (convert_and_broadcast _ _); [|exact Id]. exact (Alloc _).
  - destruct (u_ens u) as [o|o]; [|exact Id]. unfold can_set_means. destruct (convert_and_broadcast _ _); [|exact Id]. exact (Alloc _).
  - destruct (u_ens u) as [o|o]; [exact Id|]. unfold gc_set_act. destruct (convert_and_broadcast _ _); [|exact Id]. exact (Alloc _).
  - unfold lin_set_Cs. destruct (convert_and_broadcast _ _); [|exact Id]. exact (Alloc _).
  - unfold lin_set_Ts. destruct (convert_and_broadcast _ _); [|exact Id]. exact (Alloc _).
  - destruct (existsb (Nat.eqb c) (u_exposed u)) eqn:EE; [|exact Id].
    apply existsb_exists in EE. destruct EE as (c' & Hc & Ec). apply Nat.eqb_eq in Ec. subst c'.
    unfold write. destruct (z_writeable (st_cell (u_store u) c)) eqn:Ew; [|exact Id].
    assert (Hne : a <> c) by (intros ->; destruct HP as [HP|HP]; [auto|congruence]).
    cbn. unfold protected. cbn. unfold upd. destruct (Nat.eqb_spec a c); [congruence|]. auto.
Qed.

(** well-formedness is kept *)
Lemma act_ok u x : world_ok u -> world_ok (act ops u x).
Proof.
  intros W.
  assert (Old : forall c a, (a < st_next (u_store u))%nat -> st_cell (fst (alloc (u_store u) c)) a = st_cell (u_store u) a).
  { intros c a Ha. cbn. unfold upd. destruct (Nat.eqb_spec a (st_next (u_store u))); [lia|auto]. }
  assert (Hint : forall f, u_int u = UFH f -> (fo_chis f < st_next (u_store u))%nat).
  { intros f Hf. apply (wo_exposed u W), (wo_int u W). rewrite Hf. cbn. auto. }
  assert (Hens : (ens_array (u_ens u) < st_next (u_store u))%nat).
  { apply (wo_exposed u W), (wo_other u W). cbn. auto. }
  pose proof (wo_int u W) as HI. pose proof (wo_other u W) as HO. pose proof (wo_exposed u W) as HE.
  (* a new array shown to the user; the objects may refer to it *)
  assert (Gen : forall c io en es li,
     incl (int_arrays io) (st_next (u_store u) :: u_exposed u) ->
     incl [go_sizes en; ens_array es; lo_Cs li; lo_Ts li] (st_next (u_store u) :: u_exposed u) ->
     (forall f, io = UFH f -> (fo_chis f = st_next (u_store u) /\ z_writeable c = true) \/ u_int u = UFH f) ->
     (forall f, es = UCan f -> (co_means f = st_next (u_store u) /\ z_writeable c = false) \/ u_ens u = UCan f) ->
     world_ok {| u_store := fst (alloc (u_store u) c); u_int := io; u_ent := en; u_ens := es; u_lin := li;
                 u_exposed := st_next (u_store u) :: u_exposed u |}).
  { intros c io en es li H1 H2 H3 H4. split; cbn [u_store u_int u_ent u_ens u_lin u_exposed].
    - intros a [<-|Ha]; [cbn; lia|]. specialize (HE a Ha). cbn. lia.
    - exact H1.
    - exact H2.
    - intros f Hf. destruct (H3 f Hf) as [[-> Hw]|Hf'].
      + cbn. unfold upd. now rewrite Nat.eqb_refl.
      + rewrite Old by now apply Hint. now apply (wo_chis u W).
    - intros f Hf. destruct (H4 f Hf) as [[-> Hw]|Hf'].
      + cbn. unfold upd. now rewrite Nat.eqb_refl.
      + rewrite Old; [now apply (wo_means u W)|]. rewrite Hf' in Hens. exact Hens. }
  assert (HI' : incl (int_arrays (u_int u)) (st_next (u_store u) :: u_exposed u)) by (intros a Ha; right; auto).
  assert (HO' : incl (other_arrays u) (st_next (u_store u) :: u_exposed u)) by (intros a Ha; right; auto).
  destruct x; cbn [act].
  - destruct (u_int u) as [o|o] eqn:EI; [|exact W]. unfold fh_set_chis, fh_symmetric.
    destruct (convert_and_broadcast _ _); [|exact W]. cbn [bind alloc].
    apply Gen; cbn; auto.
    + intros k [<-|[]]; now left.
    + intros f Hf. injection Hf as <-. left. cbn. auto.
  - destruct (u_int u) as [o|o] eqn:EI; [|exact W]. cbn [fh_set_uniform alloc]. apply Gen; cbn; auto.
    + intros k [<-|[]]; now left.
    + intros f Hf. injection Hf as <-. left. cbn. auto.
  - destruct (u_int u) as [o|o] eqn:EI; [|exact W].
    assert (HX : exists s', fst (fst (fh_set_random ops (u_store u) o mean std vanishing g)) = s' /\
              st_next s' = st_next (u_store u) /\ forall a, z_writeable (st_cell s' a) = z_writeable (st_cell (u_store u) a)).
    { destruct (Rlt_dec std 0) as [Hn|Hn].
      - unfold fh_set_random. rewrite (proj2 (Rltb_true std 0)) by auto. eexists. split; [reflexivity|].
        cbn. split; [reflexivity|]. intros a. unfold upd. destruct (Nat.eqb_spec a (fo_chis o)); [subst|]; reflexivity.
      - destruct (set_random_spec ops (u_store u) o mean std vanishing g) as (vals & s' & E & _ & _ & N' & F & _ & Wr & _); [lra|].
        rewrite E. cbn [fst]. eexists. split; [reflexivity|]. split; auto. intros a.
        destruct (Nat.eq_dec a (fo_chis o)) as [->|Hne]; [auto|]. now rewrite F. }
    destruct HX as (s' & E & N' & F). destruct (fh_set_random _ _ _ _ _ _ _) as [[s2 g2] e2]. cbn [fst] in E. subst s2.
    split; cbn; auto.
    + intros a Ha. rewrite N'. auto.
    + rewrite EI. exact HI.
    + intros f Hf. rewrite F. apply (wo_chis u W). congruence.
    + intros f Hf. rewrite F. now apply (wo_means u W).
  - destruct (u_int u) as [o|o]; exact W.
  - unfold ig_set_sizes. destruct (convert_and_broadcast _ _); [|exact W]. cbn [bind alloc]. apply Gen; auto.
    intros k [<-|[<-|[<-|[<-|[]]]]]; [now left| | |]; apply HO'; cbn; auto.
  - destruct (u_ens u) as [o|o] eqn:EE; [|exact W]. unfold can_set_means. destruct (convert_and_broadcast _ _); [|exact W].
    cbn [bind alloc]. apply Gen; cbn; auto.
    + intros k [<-|[<-|[<-|[<-|[]]]]]; [|now left| |]; apply HO'; cbn; auto.
    + intros f Hf. injection Hf as <-. left. cbn. auto.
  - destruct (u_ens u) as [o|o] eqn:EE; [exact W|]. unfold gc_set_act. destruct (convert_and_broadcast _ _); [|exact W].
    cbn [bind alloc]. apply Gen; cbn; auto.
    + intros k [<-|[<-|[<-|[<-|[]]]]]; [|now left| |]; apply HO'; cbn; auto.
    + intros f Hf. discriminate Hf.
  - unfold lin_set_Cs. destruct (convert_and_broadcast _ _); [|exact W]. cbn [bind alloc]. apply Gen; cbn; auto.
    intros k [<-|[<-|[<-|[<-|[]]]]]; [| |now left|]; apply HO'; cbn; auto.
  - unfold lin_set_Ts. destruct (convert_and_broadcast _ _); [|exact W]. cbn [bind alloc]. apply Gen; cbn; auto.
    intros k [<-|[<-|[<-|[<-|[]]]]]; [| | |now left]; apply HO'; cbn; auto.
  - destruct (existsb _ _); [|exact W]. unfold write. destruct (z_writeable (st_cell (u_store u) c)) eqn:Ew; [|destruct u; exact W].
    cbn [fst]. split; cbn; auto.
    + intros f Hf. unfold upd. destruct (Nat.eqb_spec (fo_chis f) c); [reflexivity|]. now apply (wo_chis u W).
    + intros f Hf. unfold upd. destruct (Nat.eqb_spec (co_means f) c); [|now apply (wo_means u W)].
      exfalso. pose proof (wo_means u W f Hf). congruence.
Qed.

Lemma acts_protected u xs a : world_ok u -> protected u a ->
  st_cell (u_store (acts ops u xs)) a = st_cell (u_store u) a.
Proof.
  unfold acts. revert u. induction xs as [|x xs IH]; intros u W P; cbn [fold_left]; [reflexivity|].
  destruct (act_protected u x a W P) as [P' E]. rewrite IH; auto. now apply act_ok.
Qed.

(** compiling adds private arrays only *)
Lemma compile_ok u shift u1 r : world_ok u -> compile_world u shift = (u1, r) ->
  world_ok u1 /\ u_exposed u1 = u_exposed u /\ (st_next (u_store u) <= st_next (u_store u1))%nat /\
  (forall a, (a < st_next (u_store u))%nat -> st_cell (u_store u1) a = st_cell (u_store u) a) /\
  protected u1 (r_sizes r) /\
  z_at (st_cell (u_store u1) (r_sizes r)) = z_at (st_cell (u_store u) (go_sizes (u_ent u))) /\
  match u_int u with
  | UFH f => protected u1 (r_chis r) /\ r_nf r = fo_nc f /\
             z_at (st_cell (u_store u1) (r_chis r)) = z_at (st_cell (u_store u) (fo_chis f)) 
  | UBlock b => r_chis r = bo_feat b /\ r_nf r = bo_nf b
  end /\
  r_coef r = mat_sum (r_nf r) (z_at (st_cell (u_store u1) (r_chis r))) +
             (- mat_min (r_nf r) (z_at (st_cell (u_store u1) (r_chis r))) + shift) * INR (r_nf r) * INR (r_nf r) /\
  r_ens_vec r = ens_array (u_ens u) /\ r_Cs r = lo_Cs (u_lin u) /\ r_Ts r = lo_Ts (u_lin u) /\ u_int u1 = u_int u /\ u_ens u1 = u_ens u.
Proof.
  intros W H. pose proof (wo_exposed u W) as HE.
  assert (Hs : (go_sizes (u_ent u) < st_next (u_store u))%nat) by (apply HE, (wo_other u W); cbn; auto).
  assert (He : (ens_array (u_ens u) < st_next (u_store u))%nat) by (apply HE, (wo_other u W); cbn; auto).
  assert (Hi : forall f, u_int u = UFH f -> (fo_chis f < st_next (u_store u))%nat).
  { intros f Hf. apply HE, (wo_int u W). rewrite Hf. cbn. auto. }
  assert (Hb : forall b, u_int u = UBlock b -> (bo_feat b < st_next (u_store u))%nat).
  { intros b Hf. apply HE, (wo_int u W). rewrite Hf. cbn. auto. }
  assert (Wex : forall s', (st_next (u_store u) <= st_next s')%nat ->
     (forall a, (a < st_next (u_store u))%nat -> st_cell s' a = st_cell (u_store u) a) -> world_ok (with_store u s' [])).
  { intros s' H1 H2. split; cbn; auto.
    - intros a Ha. specialize (HE a Ha). lia.
    - apply (wo_int u W).
    - apply (wo_other u W).
    - intros f Hf. rewrite H2 by auto. now apply (wo_chis u W).
    - intros f Hf. rewrite H2; [now apply (wo_means u W)|]. rewrite Hf in He. exact He. }
  assert (Hnx : ~ In (st_next (u_store u)) (u_exposed u)) by (intros K; specialize (HE _ K); lia).
  assert (Hnx' : ~ In (S (st_next (u_store u))) (u_exposed u)) by (intros K; specialize (HE _ K); lia).
  unfold compile_world in H. destruct (u_int u) as [f|b] eqn:EI.
  - specialize (Hi f eq_refl). unfold copy_float in H. cbn [alloc st_next st_cell] in H.
    destruct (match u_ens u with UCan o => (true, co_nc o, co_means o) | UGC o => (false, xo_nc o, xo_act o) end) as [[canon enc] env] eqn:EN.
    assert (Eenv : env = ens_array (u_ens u)) by (destruct (u_ens u); injection EN as <- <- <-; reflexivity).
    injection H as <- <-. cbn [r_sizes r_chis r_nf r_coef r_ens_vec r_Cs r_Ts with_store u_store u_exposed u_int u_ens app st_next st_cell].
    split; [apply Wex; cbn; [lia|]|]; cbn;
      [intros a Ha; unfold upd; destruct (Nat.eqb_spec a (S (st_next (u_store u)))), (Nat.eqb_spec a (st_next (u_store u))); try lia; auto|].
    split; [reflexivity|]. split; [lia|].
    split; [intros a Ha; unfold upd; destruct (Nat.eqb_spec a (S (st_next (u_store u)))), (Nat.eqb_spec a (st_next (u_store u))); try lia; auto|].
    split; [split; cbn; [lia|auto]|]. split; [unfold upd; rewrite ?Nat.eqb_refl; cbn; unfold upd; repeat (match goal with |- context [Nat.eqb ?a ?b] => destruct (Nat.eqb_spec a b); try lia end); reflexivity|].
    split; [split; [split; cbn; [lia|auto]|split; [reflexivity|]]|].
    + unfold upd. repeat (match goal with |- context [Nat.eqb ?a ?b] => destruct (Nat.eqb_spec a b); try lia end); reflexivity.
    + split; [|auto 10]. unfold upd. repeat (match goal with |- context [Nat.eqb ?a ?b] => destruct (Nat.eqb_spec a b); try lia end); reflexivity.
  - specialize (Hb b eq_refl). unfold copy_float in H. cbn [alloc st_next st_cell] in H.
    destruct (match u_ens u with UCan o => (true, co_nc o, co_means o) | UGC o => (false, xo_nc o, xo_act o) end) as [[canon enc] env] eqn:EN.
    assert (Eenv : env = ens_array (u_ens u)) by (destruct (u_ens u); injection EN as <- <- <-; reflexivity).
    injection H as <- <-. cbn [r_sizes r_chis r_nf r_coef r_ens_vec r_Cs r_Ts with_store u_store u_exposed u_int u_ens app st_next st_cell].
    split; [apply Wex; cbn; [lia|]|]; cbn;
      [intros a Ha; unfold upd; destruct (Nat.eqb_spec a (st_next (u_store u))); try lia; auto|].
    split; [reflexivity|]. split; [lia|].
    split; [intros a Ha; unfold upd; destruct (Nat.eqb_spec a (st_next (u_store u))); try lia; auto|].
    split; [split; cbn; [lia|auto]|]. split; [unfold upd; now rewrite Nat.eqb_refl|].
    split; [auto|]. split; [|auto 10]. unfold upd. destruct (Nat.eqb_spec (bo_feat b) (st_next (u_store u))); [lia|reflexivity].
Qed.

(** The interaction seen by the finder: for a Flory-Huggins object it is the
    one of the moment of compilation, whatever the user does afterwards. *)
Theorem C55_interaction u shift u1 r f xs : world_ok u -> u_int u = UFH f -> compile_world u shift = (u1, r) ->
  seen_interaction (u_store (acts ops u1 xs)) r = fh_compile (fo_nc f) (z_at (st_cell (u_store u) (fo_chis f))) shift.
Proof.
  intros W EI H. destruct (compile_ok u shift u1 r W H) as (W1 & _ & _ & _ & _ & _ & HF & HC & _).
  rewrite EI in HF. destruct HF as (P & Nf & EX).
  unfold seen_interaction. rewrite (acts_protected u1 xs (r_chis r) W1 P), HC, EX, Nf. reflexivity.
Qed.

(** The entropy: always. *)
Theorem C55_entropy u shift u1 r xs : world_ok u -> compile_world u shift = (u1, r) ->
  seen_entropy (u_store (acts ops u1 xs)) r = seen_entropy (u_store u1) r /\
  (go_npf (u_ent u) = None ->
     seen_entropy (u_store u1) r = ig_compiled (go_nc (u_ent u)) (z_at (st_cell (u_store u) (go_sizes (u_ent u))) 0%nat)).
Proof.
  intros W H. destruct (compile_ok u shift u1 r W H) as (W1 & _ & _ & _ & P & EX & _).
  unfold seen_entropy. rewrite (acts_protected u1 xs (r_sizes r) W1 P). split; [reflexivity|].
  intros Hn. rewrite EX. unfold compile_world in H. rewrite Hn in H.
  destruct (match u_int u with UFH o => _ | UBlock o => _ end) as [[s1 nf] chis].
  destruct (copy_float _ _). destruct (match u_ens u with UCan o => _ | UGC o => _ end) as [[? ?] ?].
  injection H as <- <-. reflexivity.
Qed.

(** The ensemble: for canonical ensembles. *)
Theorem C55_canonical u shift u1 r c xs : world_ok u -> u_ens u = UCan c -> compile_world u shift = (u1, r) ->
  seen_ensemble (u_store (acts ops u1 xs)) r = can_compiled (co_nc c) (z_at (st_cell (u_store u) (co_means c)) 0%nat).
Proof.
  intros W EE H. destruct (compile_ok u shift u1 r W H) as (W1 & _ & HN & HO & _ & _ & _ & _ & EV & _ & _ & _ & EE1).
  assert (Ha : (co_means c < st_next (u_store u))%nat).
  { apply (wo_exposed u W), (wo_other u W). cbn. rewrite EE. auto. }
  assert (P : protected u1 (co_means c)).
  { split; [lia|]. right. apply (wo_means u1 W1). congruence. }
  unfold seen_ensemble. rewrite EV, EE. cbn [ens_array]. rewrite (acts_protected u1 xs _ W1 P), HO by exact Ha.
  assert (Er : r_ens r = true /\ r_ens_nc r = co_nc c).
  { unfold compile_world in H. rewrite EE in H.
    destruct (match u_int u with UFH o => _ | UBlock o => _ end) as [[s1 nf] chis].
    destruct (copy_float _ _). injection H as <- <-. auto. }
  destruct Er as [-> ->]. reflexivity.
Qed.

(** Assignments of whole attributes never reach the finder, for any kind of
    object: only in-place modification can. *)
Definition in_place (x : action (G := G)) : Prop :=
  match x with Write _ _ _ _ => True | SetRandom _ _ _ _ => True | _ => False end.

Theorem C55_assignment u shift u1 r xs ratio elast : world_ok u -> compile_world u shift = (u1, r) ->
  Forall (fun x => ~ in_place x) xs ->
  let s := u_store (acts ops u1 xs) in
  seen_interaction s r = seen_interaction (u_store u1) r /\
  seen_entropy s r = seen_entropy (u_store u1) r /\
  seen_ensemble s r = seen_ensemble (u_store u1) r /\
  seen_constraint s r ratio elast = seen_constraint (u_store u1) r ratio elast.
Proof.
  intros W H HF s. destruct (compile_ok u shift u1 r W H) as (W1 & HEx & HN & HO & PS & _ & HI & _ & EV & EC & ET & _).
  assert (Keep : forall v, (forall a, (a < st_next (u_store v))%nat -> st_cell (u_store (acts ops v xs)) a = st_cell (u_store v) a)).
  { clear -HF. unfold acts. induction xs as [|x xs IH]; intros v a Ha; cbn [fold_left]; [reflexivity|].
    inversion HF as [|? ? Hx HF']; subst. specialize (IH HF').
    assert (K : st_cell (u_store (act ops v x)) a = st_cell (u_store v) a /\ (st_next (u_store v) <= st_next (u_store (act ops v x)))%nat).
    { assert (Al : forall c, st_cell (fst (alloc (u_store v) c)) a = st_cell (u_store v) a).
      { intros c. cbn. unfold upd. destruct (Nat.eqb_spec a (st_next (u_store v))); [lia|reflexivity]. }
      destruct x; cbn [in_place] in Hx; try tauto; cbn [act].
      - destruct (u_int v); [|auto]. unfold fh_set_chis, fh_symmetric. destruct (convert_and_broadcast _ _); [|auto].
        split; [exact (Al _)|cbn; lia].
      - destruct (u_int v); [|auto]. split; [exact (Al _)|cbn; lia].
      - destruct (u_int v); auto.
      - unfold ig_set_sizes. destruct (convert_and_broadcast _ _); [|auto]. split; [exact (Al _)|cbn; lia].
      - destruct (u_ens v); [|auto]. unfold can_set_means. destruct (convert_and_broadcast _ _); [|auto]. split; [exact (Al _)|cbn; lia].
      - destruct (u_ens v); [auto|]. unfold gc_set_act. destruct (convert_and_broadcast _ _); [|auto]. split; [exact (Al _)|cbn; lia].
      - unfold lin_set_Cs. destruct (convert_and_broadcast _ _); [|auto]. split; [exact (Al _)|cbn; lia].
      - unfold lin_set_Ts. destruct (convert_and_broadcast _ _); [|auto]. split; [exact (Al _)|cbn; lia]. }
    destruct K as [K1 K2]. rewrite IH by lia. exact K1. }
  assert (L : forall a, In a (u_exposed u) -> (a < st_next (u_store u1))%nat)
    by (intros a Ha; pose proof (wo_exposed u W a Ha); lia).
  assert (Lc : (r_chis r < st_next (u_store u1))%nat).
  { destruct (u_int u) as [f|b] eqn:EI; [apply HI|]. destruct HI as [-> _]. apply L, (wo_int u W). rewrite EI. cbn. auto. }
  assert (Le : (r_ens_vec r < st_next (u_store u1))%nat) by (rewrite EV; apply L, (wo_other u W); cbn; auto).
  assert (LC : (r_Cs r < st_next (u_store u1))%nat) by (rewrite EC; apply L, (wo_other u W); cbn; auto).
  assert (LT : (r_Ts r < st_next (u_store u1))%nat) by (rewrite ET; apply L, (wo_other u W); cbn; auto).
  assert (LS : (r_sizes r < st_next (u_store u1))%nat) by apply PS.
  unfold seen_interaction, seen_entropy, seen_ensemble, seen_constraint, s. rewrite !Keep by auto. auto.
Qed.
End Owner.
