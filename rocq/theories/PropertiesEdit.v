(** PropertiesEdit.v -- C98: which arrays of the parameter objects accept
    assignment of single entries. *)

From Coq Require Import String Reals List Bool Arith ZArith Lra Lia.
From Verif Require Import Base ModelCommon ModelParts ModelKernel ModelObjects ModelFreeEnergy ModelFlory PropertiesObjects.
Import ListNotations.
Open Scope R_scope.

(** what an array of the given type stores for a number: a float array the
    number, an integer array an integer next to it, towards zero *)
Definition stores (t : dtype) (x y : R) : Prop :=
  match t with
  | DFloat => y = x
  | DInt => (exists z, y = IZR z) /\ Rabs (x - y) < 1 /\ (0 <= x -> 0 <= y <= x) /\ (x <= 0 -> x <= y <= 0)
  end.

(** [arr[i, j] = x] succeeds, changes this entry and nothing else *)
Definition accepts (s : store) (a : nat) : Prop := forall i j x, exists s',
  write s a i j x = (s', None) /\
  stores (z_type (st_cell s a)) x (z_at (st_cell s' a) i j) /\
  (forall i' j', (i', j') <> (i, j) -> z_at (st_cell s' a) i' j' = z_at (st_cell s a) i' j') /\
  z_type (st_cell s' a) = z_type (st_cell s a) /\
  (forall b, b <> a -> st_cell s' b = st_cell s b).

(** [arr[i, j] = x] raises ValueError and changes nothing *)
Definition refuses (s : store) (a : nat) : Prop := forall i j x, write s a i j x = (s, Some ValueError).

Lemma int_part_spec x : IZR (Int_part x) <= x /\ x - IZR (Int_part x) < 1.
Proof. destruct (base_Int_part x). lra. Qed.

Lemma int_part_nonneg x : 0 <= x -> 0 <= IZR (Int_part x).
Proof.
  intros H. destruct (int_part_spec x) as [A B].
  apply IZR_le. assert (-1 < Int_part x)%Z; [|lia]. apply lt_IZR. lra.
Qed.

Lemma cast_stores t x : stores t x (cast t x).
Proof.
  destruct t; cbn; [|reflexivity]. unfold trunc.
  destruct (Rltb x 0) eqn:E.
  - apply Rltb_true in E. destruct (int_part_spec (- x)) as [A B].
    assert (C := int_part_nonneg (- x)). split; [exists (- Int_part (- x))%Z; rewrite opp_IZR; reflexivity|].
    split; [apply Rabs_def1; lra|]. split; lra.
  - apply Rltb_false in E. destruct (int_part_spec x) as [A B]. assert (C := int_part_nonneg x).
    split; [eexists; reflexivity|]. split; [apply Rabs_def1; lra|]. split; lra.
Qed.

Lemma flag_accepts s a : z_writeable (st_cell s a) = true -> accepts s a.
Proof.
  intros W i j x. unfold write. rewrite W. eexists. split; [reflexivity|]. cbn. unfold upd. rewrite Nat.eqb_refl. cbn.
  split; [unfold upd2; rewrite !Nat.eqb_refl; apply cast_stores|]. split.
  { intros i' j' H. unfold upd2. destruct (Nat.eqb_spec i' i), (Nat.eqb_spec j' j); subst; congruence || reflexivity. }
  split; [reflexivity|]. intros b Hb. destruct (Nat.eqb_spec b a); [congruence|reflexivity].
Qed.

Lemma flag_refuses s a : z_writeable (st_cell s a) = false -> refuses s a.
Proof. intros W i j x. unfold write. rewrite W. reflexivity. Qed.

Lemma accepts_flag s a : accepts s a -> z_writeable (st_cell s a) = true.
Proof.
  intros H. destruct (H O O 0) as (s' & E & _). unfold write in E.
  destruct (z_writeable (st_cell s a)); [reflexivity|discriminate E].
Qed.

Lemma refuses_flag s a : refuses s a -> z_writeable (st_cell s a) = false.
Proof.
  intros H. specialize (H O O 0). unfold write in H.
  destruct (z_writeable (st_cell s a)); [discriminate H|reflexivity].
Qed.

Lemma alloc_flag s c : z_writeable (st_cell (fst (alloc s c)) (snd (alloc s c))) = z_writeable c.
Proof. cbn. unfold upd. rewrite Nat.eqb_refl. reflexivity. Qed.

Lemma overwrite_flag s a A b : z_writeable (st_cell (overwrite s a A) b) = z_writeable (st_cell s b).
Proof. cbn. unfold upd. destruct (Nat.eqb_spec b a); [subst|]; reflexivity. Qed.

Section Random.
Context {G : Type} (ops : rng_ops G).

Lemma random_flag s o mean std v g b :
  z_writeable (st_cell (fst (fst (fh_set_random ops s o mean std v g))) b) = z_writeable (st_cell s b).
Proof.
  unfold fh_set_random. destruct (Rltb std 0); [apply overwrite_flag|].
  destruct (normals _ _ _ _ _) as [vals g'].
  cbn [fst]. rewrite overwrite_flag. apply overwrite_flag.
Qed.

Ltac fresh_array := cbn; unfold upd; rewrite ?Nat.eqb_refl; reflexivity.

(** C98: every array of an interaction, an entropy, a grand canonical ensemble
    or a constraint accepts assignment of entries, however it was made; the
    means of a canonical ensemble do not. *)
Theorem C98_made s nc :
  (forall a s' o, fh_new s nc a = Ok (s', o) -> accepts s' (fo_chis o)) /\
  (forall t chi v s' o, fh_from_uniform s nc t chi v = Ok (s', o) -> accepts s' (fo_chis o)) /\
  (forall mean std v g g' s' o, fh_from_random ops s nc mean std v g = Ok (s', o, g') -> accepts s' (fo_chis o)) /\
  (forall a npf s' o, block_new s nc a npf = Ok (s', o) -> accepts s' (bo_feat o) /\ accepts s' (bo_chis o)) /\
  (forall sizes s' o, ig_new s nc sizes = Ok (s', o) -> accepts s' (go_sizes o)) /\
  (forall o t a s' o', gc_set_act s o t a = Ok (s', o') -> accepts s' (xo_act o')) /\
  (forall Cs Ts s' o, lin_new s nc Cs Ts = Ok (s', o) -> accepts s' (lo_Cs o) /\ accepts s' (lo_Ts o)) /\
  (forall o t a s' o', can_set_means s o t a = Ok (s', o') -> refuses s' (co_means o')).
Proof.
  assert (Hnew : forall a s' o, fh_new s nc a = Ok (s', o) -> z_writeable (st_cell s' (fo_chis o)) = true).
  { intros a s' o. unfold fh_new, fh_symmetric. destruct (convert_and_broadcast a [nc; nc]); cbn; [|discriminate].
    intros H. injection H as <- <-. fresh_array. }
  repeat split.
  - intros a s' o H. apply flag_accepts. eauto.
  - intros t chi v s' o. unfold fh_from_uniform. destruct (fh_new s nc (scalar 0)) as [[s1 o1]|e] eqn:E; cbn; [|discriminate].
    intros H. injection H as <- <-. apply flag_accepts. fresh_array.
  - intros mean std v g g' s' o. unfold fh_from_random. destruct (fh_new s nc (scalar 0)) as [[s1 o1]|e] eqn:E; [|discriminate].
    cbn [bind]. pose proof (random_flag s1 o1 mean std v g (fo_chis o1)) as F.
    destruct (fh_set_random ops s1 o1 mean std v g) as [[s2 g2] [e|]]; [discriminate|].
    intros H. injection H as <- <- <-. apply flag_accepts. cbn [fst] in F. rewrite F. eapply Hnew. exact E.
  - revert H. unfold block_new. destruct (negb _); [discriminate|].
    destruct (convert_and_broadcast a [nc; nc]); cbn [bind]; [|discriminate].
    destruct (if allclose_T _ _ then _ else _); cbn; [|discriminate].
    intros H. injection H as <- <-. apply flag_accepts. cbn. unfold upd.
    destruct (Nat.eqb_spec (st_next s) (S (st_next s))); [lia|]. rewrite Nat.eqb_refl. reflexivity.
  - revert H. unfold block_new. destruct (negb _); [discriminate|].
    destruct (convert_and_broadcast a [nc; nc]); cbn [bind]; [|discriminate].
    destruct (if allclose_T _ _ then _ else _); cbn; [|discriminate].
    intros H. injection H as <- <-. apply flag_accepts. cbn. unfold upd. rewrite Nat.eqb_refl. reflexivity.
  - intros [[t a]|] s' o; unfold ig_new.
    + destruct (convert_and_broadcast a [nc]); cbn; [|discriminate].
      intros H. injection H as <- <-. apply flag_accepts. fresh_array.
    + intros H. injection H as <- <-. apply flag_accepts. fresh_array.
  - intros o t a s' o'. unfold gc_set_act. destruct (convert_and_broadcast a [xo_nc o]); cbn; [|discriminate].
    intros H. injection H as <- <-. apply flag_accepts. fresh_array.
  - revert H. unfold lin_new. destruct (match nd_shape (atleast_1d Cs) with [_] => _ | _ => _ end) as [n|]; cbn [bind]; [|discriminate].
    unfold lin_set_Cs. cbn [lo_cons lo_feat lo_Ts]. destruct (convert_and_broadcast Cs [n; nc]); cbn [bind]; [|discriminate].
    cbn. unfold lin_set_Ts. cbn. destruct (convert_and_broadcast Ts [n]); cbn; [|discriminate].
    intros H. injection H as <- <-. apply flag_accepts. cbn. unfold upd.
    destruct (Nat.eqb_spec (st_next s) (S (st_next s))); [lia|]. rewrite Nat.eqb_refl. reflexivity.
  - revert H. unfold lin_new. destruct (match nd_shape (atleast_1d Cs) with [_] => _ | _ => _ end) as [n|]; cbn [bind]; [|discriminate].
    unfold lin_set_Cs. cbn [lo_cons lo_feat lo_Ts]. destruct (convert_and_broadcast Cs [n; nc]); cbn [bind]; [|discriminate].
    cbn. unfold lin_set_Ts. cbn. destruct (convert_and_broadcast Ts [n]); cbn; [|discriminate].
    intros H. injection H as <- <-. apply flag_accepts. cbn. unfold upd. rewrite Nat.eqb_refl. reflexivity.
  - intros o t a s' o'. unfold can_set_means. destruct (convert_and_broadcast a [co_nc o]); cbn; [|discriminate].
    intros H. injection H as <- <-. apply flag_refuses. fresh_array.
Qed.

(** the arrays the objects of a world currently refer to *)
Definition editable (u : world) : Prop :=
  Forall (accepts (u_store u)) (int_arrays (u_int u)) /\
  accepts (u_store u) (go_sizes (u_ent u)) /\
  accepts (u_store u) (lo_Cs (u_lin u)) /\ accepts (u_store u) (lo_Ts (u_lin u)) /\
  match u_ens u with
  | UCan c => refuses (u_store u) (co_means c)
  | UGC c => accepts (u_store u) (xo_act c)
  end.

(** a later state of the store has the same arrays with the same flags *)
Definition keeps (s s' : store) : Prop :=
  forall a, (a < st_next s)%nat -> z_writeable (st_cell s' a) = z_writeable (st_cell s a).

Lemma keeps_accepts s s' a : keeps s s' -> (a < st_next s)%nat -> accepts s a -> accepts s' a.
Proof. intros K L A. apply flag_accepts. rewrite (K a L). apply accepts_flag, A. Qed.
Lemma keeps_refuses s s' a : keeps s s' -> (a < st_next s)%nat -> refuses s a -> refuses s' a.
Proof. intros K L A. apply flag_refuses. rewrite (K a L). apply refuses_flag, A. Qed.

Lemma keeps_alloc s c : keeps s (fst (alloc s c)).
Proof. intros a L. cbn. unfold upd. destruct (Nat.eqb_spec a (st_next s)); [lia|reflexivity]. Qed.

Lemma act_editable u x : world_ok u -> editable u -> editable (act ops u x).
Proof.
  intros W E. pose proof E as (EI & ES & EC & ET & EE).
  assert (LI : Forall (fun a => (a < st_next (u_store u))%nat) (int_arrays (u_int u))).
  { apply Forall_forall. intros a Ha. apply (wo_exposed u W), (wo_int u W), Ha. }
  assert (LO : forall a, In a (other_arrays u) -> (a < st_next (u_store u))%nat).
  { intros a Ha. apply (wo_exposed u W), (wo_other u W), Ha. }
  assert (LS : (go_sizes (u_ent u) < st_next (u_store u))%nat) by (apply LO; cbn; auto).
  assert (LE : (ens_array (u_ens u) < st_next (u_store u))%nat) by (apply LO; cbn; auto).
  assert (LC : (lo_Cs (u_lin u) < st_next (u_store u))%nat) by (apply LO; cbn; auto).
  assert (LT : (lo_Ts (u_lin u) < st_next (u_store u))%nat) by (apply LO; cbn; auto).
  assert (Keep : forall s', keeps (u_store u) s' ->
     Forall (accepts s') (int_arrays (u_int u)) /\ accepts s' (go_sizes (u_ent u)) /\
     accepts s' (lo_Cs (u_lin u)) /\ accepts s' (lo_Ts (u_lin u)) /\
     match u_ens u with UCan c => refuses s' (co_means c) | UGC c => accepts s' (xo_act c) end).
  { intros s' K. split.
    { rewrite Forall_forall in *. intros a Ha. eapply keeps_accepts; eauto. }
    split; [eapply keeps_accepts; eauto|]. split; [eapply keeps_accepts; eauto|]. split; [eapply keeps_accepts; eauto|].
    destruct (u_ens u); [eapply keeps_refuses|eapply keeps_accepts]; eauto. }
  assert (New : forall c, z_writeable c = true -> accepts (fst (alloc (u_store u) c)) (st_next (u_store u))).
  { intros c H. apply flag_accepts. rewrite <- H. apply (alloc_flag (u_store u) c). }
  destruct x; cbn [act].
  - destruct (u_int u) as [o|o] eqn:EU; [|exact E]. unfold fh_set_chis, fh_symmetric.
    destruct (convert_and_broadcast _ _); [|exact E]. cbn [bind].
    destruct (Keep _ (keeps_alloc (u_store u) (floats (symmetrize (mat_of_nd a0))))) as (_ & A).
    split; [constructor; [exact (New (floats (symmetrize (mat_of_nd a0))) eq_refl)|constructor]|exact A].
  - destruct (u_int u) as [o|o] eqn:EU; [|exact E]. cbv [fh_set_uniform].
    set (c := {| z_type := t; z_writeable := true; z_at := _ |}).
    destruct (Keep _ (keeps_alloc (u_store u) c)) as (_ & A).
    split; [constructor; [exact (New c eq_refl)|constructor]|exact A].
  - destruct (u_int u) as [o|o] eqn:EU; [|exact E].
    assert (K : keeps (u_store u) (fst (fst (fh_set_random ops (u_store u) o mean std vanishing g)))).
    { intros a _. apply random_flag. }
    destruct (fh_set_random _ _ _ _ _ _ _) as [[s2 g2] e2]. cbn [fst] in K. unfold editable. cbn. rewrite EU.
    exact (Keep s2 K).
  - destruct (u_int u) as [o|o] eqn:EU; exact E.
  - unfold ig_set_sizes. destruct (convert_and_broadcast _ _); [|exact E]. cbn [bind].
    destruct (Keep _ (keeps_alloc (u_store u) (vec_cell t true a0))) as (A & _ & B).
    split; [exact A|]. split; [exact (New (vec_cell t true a0) eq_refl)|exact B].
  - destruct (u_ens u) as [o|o] eqn:EU; [|exact E]. unfold can_set_means. destruct (convert_and_broadcast _ _); [|exact E]. cbn [bind].
    destruct (Keep _ (keeps_alloc (u_store u) (vec_cell t false a0))) as (A & B & C & D & _).
    split; [exact A|]. split; [exact B|]. split; [exact C|]. split; [exact D|].
    apply flag_refuses. exact (alloc_flag (u_store u) (vec_cell t false a0)).
  - destruct (u_ens u) as [o|o] eqn:EU; [exact E|]. unfold gc_set_act. destruct (convert_and_broadcast _ _); [|exact E]. cbn [bind].
    destruct (Keep _ (keeps_alloc (u_store u) (vec_cell t true a0))) as (A & B & C & D & _).
    split; [exact A|]. split; [exact B|]. split; [exact C|]. split; [exact D|].
    exact (New (vec_cell t true a0) eq_refl).
  - unfold lin_set_Cs. destruct (convert_and_broadcast _ _); [|exact E]. cbn [bind].
    destruct (Keep _ (keeps_alloc (u_store u) (floats (mat_of_nd a0)))) as (A & B & _ & D & F).
    split; [exact A|]. split; [exact B|]. split; [exact (New (floats (mat_of_nd a0)) eq_refl)|]. split; [exact D|exact F].
  - unfold lin_set_Ts. destruct (convert_and_broadcast _ _); [|exact E]. cbn [bind].
    destruct (Keep _ (keeps_alloc (u_store u) (vec_cell DFloat true a0))) as (A & B & C & _ & F).
    split; [exact A|]. split; [exact B|]. split; [exact C|]. split; [exact (New (vec_cell DFloat true a0) eq_refl)|exact F].
  - destruct (existsb (Nat.eqb c) (u_exposed u)); [|exact E].
    apply Keep. intros a _. unfold write. destruct (z_writeable (st_cell (u_store u) c)) eqn:Ew; [|reflexivity].
    cbn. unfold upd. destruct (Nat.eqb_spec a c); [subst; cbn; congruence|reflexivity].
Qed.

(** ... and so it stays, whatever is assigned to the attributes and arrays. *)
Theorem C98_stays u xs : world_ok u -> editable u -> editable (acts ops u xs).
Proof.
  revert u. induction xs as [|x xs IH]; intros u W E; [exact E|].
  cbn. apply IH; [now apply act_ok|now apply act_editable].
Qed.
End Random.

(** An integer stays what it is in every array; a fraction is lost in an array
    of integers, such as [sizes] given as a list of integers. *)
Theorem C98_values t x :
  (forall z, x = IZR z -> forall y, stores t x y -> y = x) /\
  (0 < x < 1 -> forall y, stores t x y -> t = DInt -> y = 0).
Proof.
  split.
  - intros z -> y H. destruct t; cbn in H; [|exact H]. destruct H as ((w & ->) & H & _).
    f_equal. apply Rabs_def2 in H. destruct H as [H1 H2]. rewrite <- minus_IZR in *.
    apply (lt_IZR _ 1) in H1. apply (lt_IZR (-1)) in H2. lia.
  - intros Hx y H ->. cbn in H. destruct H as ((w & ->) & _ & H & _). destruct H; [lra|].
    f_equal. apply Z.le_antisymm; [|apply le_IZR; lra].
    assert (w < 1)%Z; [apply lt_IZR; lra|lia].
Qed.
