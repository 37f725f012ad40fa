(** PropertiesFlory.v -- C69: the free-energy object FloryHuggins follows the
    assignments to its [chis] and [sizes]. *)

From Coq Require Import Reals Lra Lia.
From Coquelicot Require Import Coquelicot.
From Coq Require Import List Bool Arith ZArith.
From Verif Require Import Base ModelCommon ModelParts ModelKernel ModelObjects ModelFreeEnergy ModelFlory
  ProofsPhases PropertiesObjects ProofsFreeEnergy PropertiesFreeEnergy.
Import ListNotations.
Open Scope R_scope.

(* ------------------------------------------------------------------ *)
(** * The upper triangle, row by row *)

(** number of entries of the rows above [i] *)
Fixpoint above (n k i : nat) : nat :=
  match i with O => O | S i' => (above n k i' + (n - (i' + k)))%nat end.
(** position of entry [(i, j)] among the entries with [j >= i + k], row by row *)
Definition rank (n k i j : nat) : nat := (above n k i + (j - (i + k)))%nat.

Lemma triu_app n k m : (m <= n)%nat ->
  length (flat_map (fun i => map (fun j => (i, j)) (seq (i + k) (n - (i + k)))) (seq 0 m)) = above n k m.
Proof.
  induction m as [|m IH]; intros Hm; [reflexivity|].
  rewrite seq_S, flat_map_app, app_length, IH by lia. cbn [flat_map above]. rewrite app_nil_r, map_length, seq_length. reflexivity.
Qed.

Lemma triu_rank n k i j : (i + k <= j < n)%nat -> nth_error (triu n k) (rank n k i j) = Some (i, j).
Proof.
  intros H. unfold triu, rank.
  replace (seq 0 n) with (seq 0 i ++ i :: seq (S i) (n - S i)).
  - rewrite flat_map_app, nth_error_app2 by (rewrite triu_app; lia). rewrite triu_app by lia.
    replace (above n k i + (j - (i + k)) - above n k i)%nat with (j - (i + k))%nat by lia.
    cbn [flat_map]. rewrite nth_error_app1 by (rewrite map_length, seq_length; lia).
    rewrite (map_nth_error (fun j => (i, j)) (j - (i + k)) (seq (i + k) (n - (i + k))) (d := j)); [reflexivity|].
    rewrite (nth_error_nth' _ 0%nat) by (rewrite seq_length; lia). f_equal. rewrite seq_nth by lia. lia.
  - replace n with (i + S (n - S i))%nat at 2 by lia. rewrite seq_app. reflexivity.
Qed.

(* ------------------------------------------------------------------ *)
(** * What the user asked for *)

Section Flory.
Context {G : Type} (ops : rng_ops G).

(** Assignments and calls; arrays have full shape and float type. *)
Inductive fe_call :=
| AssignChis (A : mat)                            (* fe.chis = A *)
| AssignSizes (l : vec)                           (* fe.sizes = l *)
| CallUniform (chi : R) (vanishing : bool)        (* fe.interaction.set_uniform_chis(chi, ...) *)
| CallRandom (mean std : R) (vanishing : bool) (g : G). (* fe.interaction.set_random_chis(...) *)

(** the numbers a generator in state [g] hands out *)
Definition draws (n : nat) (mean std : R) (g : G) : nat -> R := fun m => nth m (fst (normals ops n mean std g)) 0.
Definition shift_of (vanishing : bool) : nat := if vanishing then 1%nat else 0%nat.

(** Meaning of a call on the pair (interaction matrix, sizes). *)
Definition asked_call (nc : nat) (cl : mat * vec) (x : fe_call) : mat * vec :=
  let '(chi, l) := cl in
  match x with
  | AssignChis A => (fun i j => (A i j + A j i) / 2, l)
  | AssignSizes l' => (chi, l')
  | CallUniform c v => (fun i j => if (v && Nat.eqb i j)%bool then 0 else c, l)
  | CallRandom mean std v g =>
      (fun i j => if (v && Nat.eqb i j)%bool then 0
                  else draws (above nc (shift_of v) nc) mean std g (rank nc (shift_of v) (Nat.min i j) (Nat.max i j)), l)
  end.
Definition asked (nc : nat) (cl : mat * vec) (xs : list fe_call) : mat * vec := fold_left (asked_call nc) xs cl.

(** The object. *)
Definition square_nd (nc : nat) (A : mat) : nd := {| nd_shape := [nc; nc]; nd_at := fun idx => A (nth 0 idx O) (nth 1 idx O) |}.
Definition vector_nd (nc : nat) (l : vec) : nd := {| nd_shape := [nc]; nd_at := fun idx => l (nth 0 idx O) |}.
Definition do_call (so : store * fhe) (x : fe_call) : store * fhe :=
  let '(s, o) := so in
  match x with
  | AssignChis A => match flory_set_chis s o (square_nd (he_nc o) A) with Ok so' => so' | Err _ => so end
  | AssignSizes l => match flory_set_sizes s o DFloat (vector_nd (he_nc o) l) with Ok so' => so' | Err _ => so end
  | CallUniform c v => flory_set_uniform s o DFloat c v
  | CallRandom mean std v g => let '(s', _, _) := fh_set_random ops s (he_int o) mean std v g in (s', o)
  end.
Definition do_calls (so : store * fhe) (xs : list fe_call) : store * fhe := fold_left do_call xs so.

Definition legal (x : fe_call) : Prop := match x with CallRandom _ std _ _ => 0 <= std | _ => True end.

(** the object [o] in store [s] represents matrix and sizes [cl]; its arrays are
    younger than [base] *)
Record represents (base nc : nat) (so : store * fhe) (cl : mat * vec) : Prop := {
  rp_nc : he_nc (snd so) = nc /\ fo_nc (he_int (snd so)) = nc /\ go_nc (he_ent (snd so)) = nc;
  rp_chis : forall i j, (i < nc)%nat -> (j < nc)%nat -> flory_chis (fst so) (snd so) i j = fst cl i j;
  rp_sizes : forall i, (i < nc)%nat -> flory_sizes (fst so) (snd so) i = snd cl i;
  rp_sym : forall i j, (i < nc)%nat -> (j < nc)%nat -> fst cl i j = fst cl j i;
  rp_float : z_type (st_cell (fst so) (fo_chis (he_int (snd so)))) = DFloat;
  rp_young : (base <= fo_chis (he_int (snd so)) < st_next (fst so))%nat /\
             (base <= go_sizes (he_ent (snd so)) < st_next (fst so))%nat;
  rp_apart : fo_chis (he_int (snd so)) <> go_sizes (he_ent (snd so))
}.

Lemma square_spread nc A : exists b, convert_and_broadcast (square_nd nc A) [nc; nc] = Ok b /\
  forall i j, (i < nc)%nat -> (j < nc)%nat -> mat_of_nd b i j = A i j.
Proof.
  destruct (C34_matrix (square_nd nc A) nc) as (_ & _ & _ & _ & _ & _ & H & _).
  destruct (H eq_refl) as (b & E & _ & Hb). exists b. split; auto. intros i j Hi Hj. unfold mat_of_nd.
  rewrite Hb; [reflexivity|]. repeat constructor; auto.
Qed.

Lemma vector_spread nc l : exists b, convert_and_broadcast (vector_nd nc l) [nc] = Ok b /\
  forall i, (i < nc)%nat -> row_of_nd b 0%nat i = l i.
Proof.
  destruct (C34_vector (vector_nd nc l) nc) as (_ & _ & H & _).
  destruct (H eq_refl) as (b & E & _ & Hb). exists b. split; auto. intros i Hi. unfold row_of_nd.
  rewrite Hb; [reflexivity|]. repeat constructor; auto.
Qed.

Lemma above_length nc v : above nc (shift_of v) nc = length (triu nc (if v then 1 else 0)%nat).
Proof. unfold triu. rewrite triu_app by lia. destruct v; reflexivity. Qed.

Lemma call_represents base nc so cl x : represents base nc so cl -> legal x ->
  represents base nc (do_call so x) (asked_call nc cl x) /\
  (st_next (fst so) <= st_next (fst (do_call so x)))%nat /\
  (forall a, (a < base)%nat -> st_cell (fst (do_call so x)) a = st_cell (fst so) a).
Proof.
  destruct so as [s o], cl as [chi l]. intros [[N1 [N2 N3]] HC HZ HS HF [Y1 Y2] HA] HL.
  cbn [fst snd] in *. destruct x as [A|l'|c v|mean std v g]; cbn [do_call asked_call].
  - unfold flory_set_chis, fh_set_chis, fh_symmetric. rewrite N1, N2. destruct (square_spread nc A) as (b & -> & Hb).
    cbn [bind alloc]. split; [|split; [cbn; lia|intros a Ha; cbn; unfold upd; destruct (Nat.eqb_spec a (st_next s)); [lia|auto]]].
    constructor; cbn [fst snd he_nc he_int he_ent fo_nc fo_chis st_next st_cell]; auto; unfold upd.
    + intros i j Hi Hj. unfold flory_chis. cbn. unfold upd. rewrite Nat.eqb_refl. cbn. unfold symmetrize. rewrite !Hb by auto. lra.
    + intros i Hi. unfold flory_sizes. cbn. unfold upd. destruct (Nat.eqb_spec (go_sizes (he_ent o)) (st_next s)); [lia|]. now apply HZ.
    + intros i j Hi Hj. lra.
    + now rewrite Nat.eqb_refl.
    + lia.
    + lia.
  - unfold flory_set_sizes, ig_set_sizes. rewrite N1, N3. destruct (vector_spread nc l') as (b & -> & Hb).
    cbn [bind alloc]. split; [|split; [cbn; lia|intros a Ha; cbn; unfold upd; destruct (Nat.eqb_spec a (st_next s)); [lia|auto]]].
    constructor; cbn [fst snd he_nc he_int he_ent go_nc go_sizes st_next st_cell]; auto; unfold upd.
    + intros i j Hi Hj. unfold flory_chis. cbn. unfold upd. destruct (Nat.eqb_spec (fo_chis (he_int o)) (st_next s)); [lia|]. now apply HC.
    + intros i Hi. unfold flory_sizes. cbn. unfold upd. rewrite Nat.eqb_refl. cbn. now apply Hb.
    + destruct (Nat.eqb_spec (fo_chis (he_int o)) (st_next s)); [lia|]. auto.
    + lia.
    + lia.
  - unfold flory_set_uniform, fh_set_uniform. cbn [alloc].
    split; [|split; [cbn; lia|intros a Ha; cbn; unfold upd; destruct (Nat.eqb_spec a (st_next s)); [lia|auto]]].
    constructor; cbn [fst snd he_nc he_int he_ent fo_nc fo_chis st_next st_cell]; auto; unfold upd.
    + intros i j Hi Hj. unfold flory_chis. cbn. unfold upd. rewrite Nat.eqb_refl. reflexivity.
    + intros i Hi. unfold flory_sizes. cbn. unfold upd. destruct (Nat.eqb_spec (go_sizes (he_ent o)) (st_next s)); [lia|]. now apply HZ.
    + intros i j Hi Hj. now rewrite (Nat.eqb_sym i j).
    + now rewrite Nat.eqb_refl.
    + lia.
    + lia.
  - cbn [legal] in HL. destruct (set_random_spec ops s (he_int o) mean std v g HL) as (vals & s' & E & EV & LV & NX & FR & TY & _ & HP & HO).
    rewrite E. rewrite N2 in *. rewrite HF in *. cbn [cast] in *.
    assert (EN : above nc (shift_of v) nc = length (triu nc (if v then 1 else 0)%nat)) by apply above_length.
    split; [|split; [cbn; lia|intros a Ha; apply FR; lia]].
    assert (K : forall i j, (i < nc)%nat -> (j < nc)%nat -> (i <= j)%nat -> (v && Nat.eqb i j)%bool = false ->
      z_at (st_cell s' (fo_chis (he_int o))) i j = draws (above nc (shift_of v) nc) mean std g (rank nc (shift_of v) i j) /\
      z_at (st_cell s' (fo_chis (he_int o))) j i = draws (above nc (shift_of v) nc) mean std g (rank nc (shift_of v) i j)).
    { intros i j Hi Hj Hij Hv. unfold draws. rewrite EN, <- EV.
      apply (HP (rank nc (shift_of v) i j)). unfold shift_of in *. apply triu_rank.
      destruct v; [|lia]. cbn in Hv. apply Nat.eqb_neq in Hv. lia. }
    constructor; cbn [fst snd]; auto; try lia.
    + intros i j Hi Hj. unfold flory_chis. cbn [fst]. destruct (v && Nat.eqb i j)%bool eqn:Ev.
      * apply andb_true_iff in Ev. destruct Ev as [-> Ev]. apply Nat.eqb_eq in Ev. subst j.
        rewrite HO; [reflexivity| |]; rewrite triu_In; lia.
      * destruct (Nat.le_ge_cases i j) as [Hij|Hij].
        -- rewrite Nat.min_l, Nat.max_r by auto. now apply K.
        -- rewrite Nat.min_r, Nat.max_l by auto. apply K; auto. now rewrite Nat.eqb_sym.
    + intros i Hi. unfold flory_sizes. cbn [fst snd]. rewrite FR by auto. now apply HZ.
    + intros i j Hi Hj. cbn [fst]. now rewrite (Nat.eqb_sym i j), (Nat.min_comm i j), (Nat.max_comm i j).
Qed.

Lemma calls_represent base nc xs : forall so cl, represents base nc so cl -> Forall legal xs ->
  represents base nc (do_calls so xs) (asked nc cl xs) /\
  (forall a, (a < base)%nat -> st_cell (fst (do_calls so xs)) a = st_cell (fst so) a).
Proof.
  unfold do_calls, asked. induction xs as [|x xs IH]; intros so cl HR HL; cbn [fold_left]; auto.
  inversion HL as [|? ? H1 H2]; subst. destruct (call_represents _ _ _ _ _ HR H1) as (R1 & _ & F1).
  destruct (IH _ _ R1 H2) as [R2 F2]. split; auto. intros a Ha. now rewrite F2, F1.
Qed.

(* ------------------------------------------------------------------ *)
(** * C69 *)

(** an omitted [sizes] argument means all-one *)
Definition sizes_arg (nc : nat) (sz : option vec) : option (dtype * nd) :=
  match sz with None => None | Some l => Some (DFloat, vector_nd nc l) end.
Definition sizes_val (sz : option vec) : vec := match sz with None => fun _ => 1 | Some l => l end.

(** The ways to create a FloryHuggins object, with what is asked for. *)
Inductive created (s : store) (nc : nat) : store * fhe -> mat * vec -> Prop :=
| ByMatrix A sz so : flory_new s nc (square_nd nc A) (sizes_arg nc sz) = Ok so ->
    created s nc so (fun i j => (A i j + A j i) / 2, sizes_val sz)
| ByNumber x sz so : flory_new s nc (scalar x) (sizes_arg nc sz) = Ok so ->
    created s nc so (fun _ _ => x, sizes_val sz)
| ByUniform chi v sz so : flory_from_uniform s nc DFloat chi (sizes_arg nc sz) v = Ok so ->
    created s nc so (asked_call nc (fun _ _ => 0, sizes_val sz) (CallUniform chi v))
| ByRandom mean std v g sz s' o g' : flory_from_random ops s nc mean std (sizes_arg nc sz) v g = Ok (s', o, g') ->
    created s nc (s', o) (asked_call nc (fun _ _ => 0, sizes_val sz) (CallRandom mean std v g)).

Lemma new_represents s nc a sz M : 
  (exists b, convert_and_broadcast a [nc; nc] = Ok b /\
     forall i j, (i < nc)%nat -> (j < nc)%nat -> symmetrize (mat_of_nd b) i j = M i j) ->
  exists so, flory_new s nc a (sizes_arg nc sz) = Ok so /\ represents (st_next s) nc so (M, sizes_val sz) /\
    (forall x, (x < st_next s)%nat -> st_cell (fst so) x = st_cell s x).
Proof.
  intros (b & Eb & Hb). unfold flory_new, fh_new, fh_symmetric. rewrite Eb. cbn [bind alloc].
  assert (HM : forall i j, (i < nc)%nat -> (j < nc)%nat -> M i j = M j i).
  { intros i j Hi Hj. rewrite <- !Hb by auto. unfold symmetrize. ring. }
  unfold ig_new, sizes_arg. destruct sz as [l|].
  - destruct (vector_spread nc l) as (v & -> & Hv). cbn [bind alloc st_next st_cell]. unfold energy_new.
    cbn [fo_nc go_nc]. rewrite Nat.eqb_refl. cbn [bind]. eexists. split; [reflexivity|]. split.
    + constructor; cbn [fst snd he_nc he_int he_ent fo_nc go_nc fo_chis go_sizes st_next]; auto; try lia.
      * intros i j Hi Hj. unfold flory_chis. cbn. unfold upd. destruct (Nat.eqb_spec (st_next s) (S (st_next s))); [lia|].
        rewrite Nat.eqb_refl. cbn. now apply Hb.
      * intros i Hi. unfold flory_sizes. cbn. unfold upd. rewrite Nat.eqb_refl. cbn. now apply Hv.
      * cbn. unfold upd. destruct (Nat.eqb_spec (st_next s) (S (st_next s))); [lia|]. now rewrite Nat.eqb_refl.
    + intros x Hx. cbn. unfold upd. destruct (Nat.eqb_spec x (S (st_next s))); [lia|].
      destruct (Nat.eqb_spec x (st_next s)); [lia|auto].
  - cbn [bind alloc st_next st_cell]. unfold energy_new.
    cbn [fo_nc go_nc]. rewrite Nat.eqb_refl. cbn [bind]. eexists. split; [reflexivity|]. split.
    + constructor; cbn [fst snd he_nc he_int he_ent fo_nc go_nc fo_chis go_sizes st_next]; auto; try lia.
      * intros i j Hi Hj. unfold flory_chis. cbn. unfold upd. destruct (Nat.eqb_spec (st_next s) (S (st_next s))); [lia|].
        rewrite Nat.eqb_refl. cbn. now apply Hb.
      * intros i Hi. unfold flory_sizes. cbn. unfold upd. rewrite Nat.eqb_refl. reflexivity.
      * cbn. unfold upd. destruct (Nat.eqb_spec (st_next s) (S (st_next s))); [lia|]. now rewrite Nat.eqb_refl.
    + intros x Hx. cbn. unfold upd. destruct (Nat.eqb_spec x (S (st_next s))); [lia|].
      destruct (Nat.eqb_spec x (st_next s)); [lia|auto].
Qed.

Lemma square_symm nc A : exists b, convert_and_broadcast (square_nd nc A) [nc; nc] = Ok b /\
  forall i j, (i < nc)%nat -> (j < nc)%nat -> symmetrize (mat_of_nd b) i j = (A i j + A j i) / 2.
Proof.
  destruct (square_spread nc A) as (b & E & Hb). exists b. split; auto. intros i j Hi Hj.
  unfold symmetrize. rewrite !Hb by auto. lra.
Qed.

Lemma scalar_symm nc x : exists b, convert_and_broadcast (scalar x) [nc; nc] = Ok b /\
  forall i j, (i < nc)%nat -> (j < nc)%nat -> symmetrize (mat_of_nd b) i j = x.
Proof.
  destruct (C34_matrix (scalar x) nc) as (H & _). destruct (H eq_refl) as (b & E & _ & Hb). exists b. split; auto.
  intros i j Hi Hj. unfold symmetrize, mat_of_nd. rewrite !Hb by (repeat constructor; auto). cbn. lra.
Qed.

(** Creation succeeds. *)
Theorem C69_creation s nc sz :
  (forall A, exists so, flory_new s nc (square_nd nc A) (sizes_arg nc sz) = Ok so) /\
  (forall x, exists so, flory_new s nc (scalar x) (sizes_arg nc sz) = Ok so) /\
  (forall chi v, exists so, flory_from_uniform s nc DFloat chi (sizes_arg nc sz) v = Ok so) /\
  (forall mean std v g, 0 <= std -> exists so g', flory_from_random ops s nc mean std (sizes_arg nc sz) v g = Ok (so, g')) /\
  (forall mean std v g, std < 0 -> flory_from_random ops s nc mean std (sizes_arg nc sz) v g = Err ValueError) /\
  (* a vector of sizes of another length *)
  (forall A n t l, n <> nc -> n <> 1%nat ->
     flory_new s nc (square_nd nc A) (Some (t, vector_nd n l)) = Err ValueError).
Proof.
  assert (Z : exists so, flory_new s nc (scalar 0) (sizes_arg nc sz) = Ok so /\ fo_nc (he_int (snd so)) = nc).
  { destruct (new_represents s nc (scalar 0) sz (fun _ _ => 0) (scalar_symm nc 0)) as (so & E & HR & _). exists so. split; auto. apply HR. }
  destruct Z as ((s1 & o1) & EZ & NZ). cbn [snd] in NZ. repeat split.
  - intros A. destruct (new_represents s nc _ sz _ (square_symm nc A)) as (so & E & _). eauto.
  - intros x. destruct (new_represents s nc _ sz (fun _ _ => x) (scalar_symm nc x)) as (so & E & _). eauto.
  - intros chi v. unfold flory_from_uniform. rewrite EZ. cbn [bind]. eauto.
  - intros mean std v g Hs. unfold flory_from_random. rewrite EZ. cbn [bind].
    destruct (set_random_spec ops s1 (he_int o1) mean std v g Hs) as (vals & s' & E & _). rewrite E. eauto.
  - intros mean std v g Hs. unfold flory_from_random. rewrite EZ. cbn [bind].
    unfold fh_set_random. rewrite (proj2 (Rltb_true std 0)) by auto. reflexivity.
  - intros A n t l H1 H2. unfold flory_new, fh_new, fh_symmetric. destruct (square_spread nc A) as (b & -> & _). cbn [bind alloc].
    unfold ig_new. destruct (C34_vector (vector_nd n l) nc) as (_ & _ & _ & H). rewrite H; cbn; congruence.
Qed.

Lemma created_represents s nc so cl : created s nc so cl ->
  represents (st_next s) nc so cl /\ (forall x, (x < st_next s)%nat -> st_cell (fst so) x = st_cell s x).
Proof.
  intros H. destruct H as [A sz so E|x sz so E|chi v sz so E|mean std v g sz s' o g' E].
  - destruct (new_represents s nc _ sz _ (square_symm nc A)) as (so' & E' & HR). rewrite E in E'. injection E' as <-. exact HR.
  - destruct (new_represents s nc _ sz (fun _ _ => x) (scalar_symm nc x)) as (so' & E' & HR). rewrite E in E'. injection E' as <-. exact HR.
  - destruct (new_represents s nc _ sz (fun _ _ => 0) (scalar_symm nc 0)) as ((s1 & o1) & E' & HR & HF).
    unfold flory_from_uniform in E. rewrite E' in E. cbn [bind] in E. injection E as <-.
    destruct (call_represents _ _ _ _ (CallUniform chi v) HR I) as (R1 & _ & F1). split; [exact R1|].
    intros x Hx. cbn [do_call fst] in *. rewrite F1 by auto. now apply HF.
  - destruct (new_represents s nc _ sz (fun _ _ => 0) (scalar_symm nc 0)) as ((s1 & o1) & E' & HR & HF).
    unfold flory_from_random in E. rewrite E' in E. cbn [bind] in E.
    destruct (fh_set_random ops s1 (he_int o1) mean std v g) as [[s2 g2] [e|]] eqn:ER; [discriminate E|].
    injection E as <- <- <-.
    assert (Hs : 0 <= std).
    { destruct (Rlt_dec std 0); [|lra]. unfold fh_set_random in ER. rewrite (proj2 (Rltb_true std 0)) in ER by auto. discriminate ER. }
    destruct (call_represents _ _ _ _ (CallRandom mean std v g) HR Hs) as (R1 & _ & F1).
    cbn [do_call] in R1, F1. rewrite ER in R1, F1. split; [exact R1|].
    intros x Hx. cbn [fst] in *. rewrite F1 by auto. now apply HF.
Qed.

Lemma fh_ext nc chi chi' l l' phi : (forall i j, (i < nc)%nat -> (j < nc)%nat -> chi i j = chi' i j) ->
  (forall i, (i < nc)%nat -> l i = l' i) -> fh nc chi l phi = fh nc chi' l' phi.
Proof.
  intros H1 H2. unfold fh. f_equal; [|f_equal]; apply rsum_ext; intros i Hi; [now rewrite H2|].
  apply rsum_ext; intros j Hj. now rewrite H1.
Qed.

(** After every sequence of calls: the properties show what was asked for
    last, every method of the free energy is that of the documented formula
    with these parameters, and the arrays of other objects (all arrays older
    than this one) are untouched. *)
Theorem C69_follows s nc so0 cl0 xs : created s nc so0 cl0 -> Forall legal xs ->
  let so := do_calls so0 xs in
  let chi := fst (asked nc cl0 xs) in
  let l := snd (asked nc cl0 xs) in
  he_nc (snd so) = nc /\
  (forall i j, (i < nc)%nat -> (j < nc)%nat -> flory_chis (fst so) (snd so) i j = chi i j) /\
  (forall i, (i < nc)%nat -> flory_sizes (fst so) (snd so) i = l i) /\
  (forall a, (a < st_next s)%nat -> st_cell (fst so) a = st_cell s a) /\
  ((forall i, (i < nc)%nat -> l i <> 0) -> forall c, comp_shaped c -> comp_cols c = nc ->
     (nonneg c -> exists o, free_energy_density (flory_now (fst so) (snd so)) c = Ok o /\
        by_row c o (fun phi f => f = Fin (rsum nc (fun i => entries phi i * ln (entries phi i) / l i)
          + 1 / 2 * rsum nc (fun i => rsum nc (fun j => chi i j * entries phi i * entries phi j))))) /\
     (positive c -> exists o, jacobian (flory_now (fst so) (snd so)) c None = Ok o /\
        by_row c o (fun phi j => length j = nc /\ exists g : vec, forall i, (i < nc)%nat -> nth i j NaN = Fin (g i) /\
          slope (fh nc chi l) (entries phi) (unit_vec i) (g i)))).
Proof.
  intros HC HL so chi l. destruct (created_represents _ _ _ _ HC) as [R0 F0].
  destruct (calls_represent _ _ xs _ _ R0 HL) as [[[N1 [N2 N3]] Hc Hs Hy _ _ _] F1]. fold so chi l in Hc, Hs, Hy, F1, N1, N2, N3.
  split; [exact N1|]. split; [exact Hc|]. split; [exact Hs|]. split; [intros a Ha; rewrite F1 by auto; now apply F0|].
  intros Hl c S1 S2. set (F := flory_now (fst so) (snd so)).
  assert (NF : fe_nc F = nc) by exact N1.
  assert (WF : wf_fe F).
  { split; rewrite NF.
    - intros i Hi. cbn [F flory_now fe_sizes]. rewrite Hs by auto. auto.
    - intros i j Hi Hj. cbn [F flory_now fe_chis]. rewrite !Hc by auto. now apply Hy. }
  assert (EX : forall phi, fh (fe_nc F) (fe_chis F) (fe_sizes F) phi = fh nc chi l phi).
  { intros phi. rewrite NF. apply fh_ext; auto. }
  split.
  - intros HN. destruct (C41_value F c WF S1) as (o & E & HB); [now rewrite NF|auto|]. exists o. split; auto.
    eapply by_row_impl; [|exact HB]. cbn beta. intros phi f _ ->. f_equal. apply EX.
  - intros HP. destruct (C42_gradient F c WF S1) as (o & E & HB); [now rewrite NF|auto|]. exists o. split; auto.
    eapply by_row_impl; [|exact HB]. cbn beta. rewrite NF. intros phi j _ (HLn & g & H1 & H2 & _). split; auto.
    exists g. intros i Hi. split; auto. unfold slope in *. eapply is_derive_ext; [|exact (H2 i Hi)]. intros t. apply EX.
Qed.

(** [independent_entries] lists the matrix once: n(n+1)/2 numbers, entry
    (i, j) with i <= j at its row-by-row position; it determines every value
    of the free energy. *)
Theorem C69_independent s nc so0 cl0 xs : created s nc so0 cl0 -> Forall legal xs ->
  let so := do_calls so0 xs in
  let e := independent_entries (fst so) (he_int (snd so)) in
  (2 * length e = nc * (nc + 1))%nat /\
  (forall i j, (i <= j < nc)%nat -> nth (rank nc 0 i j) e 0 = flory_chis (fst so) (snd so) i j) /\
  (forall m, (m < length e)%nat -> exists i j, (i <= j < nc)%nat /\ m = rank nc 0 i j).
Proof.
  intros HC HL so e. destruct (created_represents _ _ _ _ HC) as [R0 _].
  destruct (calls_represent _ _ xs _ _ R0 HL) as [[[N1 [N2 N3]] Hc Hs Hy _ _ _] F1]. fold so in Hc, Hs, Hy, F1, N1, N2, N3.
  assert (LE : length e = above nc 0 nc).
  { unfold e, independent_entries. rewrite map_length, N2. unfold triu. apply triu_app. lia. }
  assert (Q : forall m, (m <= nc)%nat -> (2 * above nc 0 m + m * m = (2 * nc + 1) * m)%nat).
  { induction m; intros Hm; cbn [above]; [lia|]. specialize (IHm ltac:(lia)). nia. }
  split; [|split].
  - rewrite LE. specialize (Q nc (le_n nc)). nia.
  - intros i j Hij. unfold e, independent_entries. rewrite N2.
    pose proof (triu_rank nc 0 i j ltac:(lia)) as HR.
    apply (map_nth_error (fun '(i, j) => z_at (st_cell (fst so) (fo_chis (he_int (snd so)))) i j)) in HR.
    apply nth_error_nth with (d := 0) in HR. rewrite HR. reflexivity.
  - rewrite LE. intros m Hm.
    assert (K : forall n, (n <= nc)%nat -> (m < above nc 0 n)%nat -> exists i j, (i <= j < nc)%nat /\ m = rank nc 0 i j).
    { induction n; intros Hn Hlt; cbn [above] in Hlt; [lia|]. destruct (Nat.lt_ge_cases m (above nc 0 n)) as [H|H]; [apply IHn; auto; lia|].
      exists n, (n + (m - above nc 0 n))%nat. unfold rank. split; lia. }
    apply (K nc); auto.
Qed.

Theorem C69_determined s nc so0 cl0 xs s' so0' cl0' xs' phi :
  created s nc so0 cl0 -> Forall legal xs -> created s' nc so0' cl0' -> Forall legal xs' ->
  let so := do_calls so0 xs in
  let so' := do_calls so0' xs' in
  independent_entries (fst so) (he_int (snd so)) = independent_entries (fst so') (he_int (snd so')) ->
  (forall i, (i < nc)%nat -> flory_sizes (fst so) (snd so) i = flory_sizes (fst so') (snd so') i) ->
  (forall i, (i < nc)%nat -> flory_sizes (fst so) (snd so) i <> 0) ->
  length phi = nc -> Forall (fun x => 0 <= x) phi ->
  free_energy_density (flory_now (fst so) (snd so)) (One phi) = free_energy_density (flory_now (fst so') (snd so')) (One phi).
Proof.
  intros C1 L1 C2 L2 so so' HE HZ HN HL HP.
  destruct (C69_independent _ _ _ _ xs C1 L1) as (_ & E1 & _). destruct (C69_independent _ _ _ _ xs' C2 L2) as (_ & E2 & _).
  destruct (C69_follows _ _ _ _ xs C1 L1) as (N1 & H1 & S1 & _ & D1). destruct (C69_follows _ _ _ _ xs' C2 L2) as (N2 & H2 & S2 & _ & D2).
  fold so in E1, N1, H1, S1, D1. fold so' in E2, N2, H2, S2, D2. cbv zeta in *.
  assert (EC : forall i j, (i < nc)%nat -> (j < nc)%nat -> fst (asked nc cl0 xs) i j = fst (asked nc cl0' xs') i j).
  { assert (U : forall i j, (i <= j < nc)%nat -> fst (asked nc cl0 xs) i j = fst (asked nc cl0' xs') i j).
    { intros i j Hij. rewrite <- H1, <- H2 by lia. rewrite <- E1, <- E2 by auto. now rewrite HE. }
    destruct (created_represents _ _ _ _ C1) as [R1 _]. destruct (created_represents _ _ _ _ C2) as [R2 _].
    destruct (calls_represent _ _ xs _ _ R1 L1) as [[_ _ _ Y1 _ _ _] _]. destruct (calls_represent _ _ xs' _ _ R2 L2) as [[_ _ _ Y2 _ _ _] _].
    intros i j Hi Hj. destruct (Nat.le_ge_cases i j); [apply U; lia|]. rewrite Y1, Y2 by auto. apply U; lia. }
  assert (ES : forall i, (i < nc)%nat -> snd (asked nc cl0 xs) i = snd (asked nc cl0' xs') i).
  { intros i Hi. rewrite <- S1, <- S2 by auto. auto. }
  destruct (D1 ltac:(intros i Hi; rewrite <- S1 by auto; auto) (One phi) I HL) as [F1 _].
  destruct (D2 ltac:(intros i Hi; rewrite <- ES, <- S1 by auto; auto) (One phi) I HL) as [F2 _].
  destruct (F1 ltac:(repeat constructor; auto)) as ([f1|] & -> & B1); [|contradiction].
  destruct (F2 ltac:(repeat constructor; auto)) as ([f2|] & -> & B2); [|contradiction].
  cbn in B1, B2. rewrite B1, B2. do 3 f_equal. exact (fh_ext nc _ _ _ _ (entries phi) EC ES).
Qed.

(** a random matrix with diagonal: the independent entries are the numbers drawn *)
Theorem C69_random s nc mean std g sz s' o g' : 
  flory_from_random ops s nc mean std (sizes_arg nc sz) false g = Ok (s', o, g') ->
  independent_entries s' (he_int o) = fst (normals ops (nc * (nc + 1) / 2) mean std g) /\
  g' = snd (normals ops (nc * (nc + 1) / 2) mean std g).
Proof.
  intros E. pose proof (ByRandom _ _ _ _ _ _ _ _ _ _ E) as HC.
  destruct (C69_independent _ _ _ _ [] HC (Forall_nil _)) as (L & HE & HS). cbn [do_calls fold_left fst snd] in *.
  destruct (C69_follows _ _ _ _ [] HC (Forall_nil _)) as (_ & Hc & _). cbn [do_calls fold_left asked fst snd] in Hc.
  set (e := independent_entries s' (he_int o)) in *.
  assert (LE : length e = (nc * (nc + 1) / 2)%nat) by (apply Nat.div_unique with (r := 0%nat); lia).
  assert (EA : above nc (shift_of false) nc = (nc * (nc + 1) / 2)%nat).
  { rewrite above_length. apply triu_length. }
  split.
  - apply (nth_ext _ _ 0 0).
    + now rewrite normals_length.
    + intros m Hm. destruct (HS m Hm) as (i & j & Hij & ->). rewrite HE by auto. rewrite Hc by lia. cbn [asked_call fst andb].
      rewrite EA, Nat.min_l, Nat.max_r by lia. reflexivity.
  - unfold flory_from_random in E. destruct (flory_new s nc (scalar 0) (sizes_arg nc sz)) as [[s1 o1]|] eqn:EZ; [|discriminate E].
    cbn [bind] in E.
    assert (N : fo_nc (he_int o1) = nc).
    { destruct (new_represents s nc (scalar 0) sz (fun _ _ => 0) (scalar_symm nc 0)) as (so & E' & HR & _). rewrite EZ in E'.
      injection E' as <-. apply HR. }
    destruct (Rlt_dec std 0) as [Hn|Hn].
    + unfold fh_set_random in E. rewrite (proj2 (Rltb_true std 0)) in E by auto. discriminate E.
    + destruct (set_random_spec ops s1 (he_int o1) mean std false g) as (vals & s2 & E2 & _); [lra|].
      rewrite E2 in E. injection E as _ _ <-. rewrite N. now rewrite (proj2 (triu_length nc)).
Qed.
End Flory.

(** The matrix returned by [fe.chis] is the live one.  Writing one entry of it
    makes it asymmetric; the energy then uses the mean of the two entries,
    whereas the Jacobian uses one of them, and is no longer the gradient. *)
Theorem C69_in_place_refuted s o i j x s' phi :
  let nc := he_nc o in
  (i < nc)%nat -> (j < nc)%nat -> i <> j ->
  (forall k, (k < nc)%nat -> flory_sizes s o k <> 0) -> go_sizes (he_ent o) <> fo_chis (he_int o) ->
  (forall a b, (a < nc)%nat -> (b < nc)%nat -> flory_chis s o a b = flory_chis s o b a) ->
  z_type (st_cell s (fo_chis (he_int o))) = DFloat -> x <> flory_chis s o i j ->
  write s (fo_chis (he_int o)) i j x = (s', None) ->
  length phi = nc -> Forall (fun y => 0 < y) phi ->
  exists J v w, jacobian (flory_now s' o) (One phi) None = Ok (Single J) /\ nth j J NaN = Fin v /\
    slope (fh nc (flory_chis s' o) (flory_sizes s' o)) (entries phi) (unit_vec j) w /\ v <> w.
Proof.
  intros nc Hi Hj Hij Hl HA HS HT Hx HW HL HP. unfold write in HW.
  destruct (z_writeable (st_cell s (fo_chis (he_int o)))) eqn:EW; [|discriminate HW]. injection HW as <-. rewrite HT in *. cbn [cast].
  match goal with |- context [flory_now ?S _] => set (s' := S) end.
  assert (EC : forall a b, flory_chis s' o a b = upd2 (flory_chis s o) i j x a b).
  { intros a b. unfold flory_chis, s'. cbn. unfold upd. now rewrite Nat.eqb_refl. }
  assert (ES : forall k, flory_sizes s' o k = flory_sizes s o k).
  { intros k. unfold flory_sizes, s'. cbn. unfold upd. destruct (Nat.eqb_spec (go_sizes (he_ent o)) (fo_chis (he_int o))); [congruence|reflexivity]. }
  assert (Hphi : forall k, (k < nc)%nat -> 0 < entries phi k) by (intros k Hk; apply positive_entries; auto; lia).
  set (chi := flory_chis s' o). set (l := flory_sizes s' o).
  set (sy := fun a b => (chi a b + chi b a) / 2).
  assert (Hl' : forall k, (k < nc)%nat -> l k <> 0) by (intros k Hk; unfold l; rewrite ES; auto).
  exists (listed nc (jacobian_at (flory_now s' o) (entries phi))).
  exists (rsum nc (fun b => entries phi b * chi b j) + (ln (entries phi j) / l j + 1 / l j)).
  exists (dfh nc sy l (entries phi) j). split; [|split; [|split]].
  - unfold jacobian. rewrite check_ok; auto.
    + repeat constructor. eapply Forall_impl; [|exact HP]. intros; lra.
  - rewrite listed_nth by auto. unfold jacobian_at, int_jacobian, ent_jacobian. cbn [flory_now fe_nc fe_chis fe_sizes].
    fold chi l nc. rewrite xlog_fin by auto. rewrite !xdiv_fin by auto. reflexivity.
  - unfold slope. apply (is_derive_ext (fun t => fh nc sy l (along (entries phi) (unit_vec j) t))).
    + intros t. unfold fh. f_equal. f_equal. set (psi := along (entries phi) (unit_vec j) t).
      transitivity (1 / 2 * (rsum nc (fun a => rsum nc (fun b => chi a b * psi a * psi b)) + rsum nc (fun a => rsum nc (fun b => chi a b * psi a * psi b)))); [|lra].
      rewrite (rsum_swap nc nc (fun a b => chi a b * psi a * psi b)) at 2. rewrite <- rsum_plus, <- rsum_scal_l.
      apply rsum_ext. intros a Ha. rewrite <- rsum_plus, <- rsum_scal_l. apply rsum_ext. intros b Hb. unfold sy. lra.
    + rewrite <- (rsum_unit nc j (dfh nc sy l (entries phi)) Hj). apply fh_slope; auto.
      intros a b Ha Hb. unfold sy. lra.
  - unfold dfh. intros E.
    assert (D : rsum nc (fun b => entries phi b * (chi b j - chi j b) / 2) = 0).
    { rewrite (rsum_ext nc _ (fun b => entries phi b * chi b j - sy j b * entries phi b)) by (intros; unfold sy; lra).
      rewrite rsum_minus. pose proof (Hl' j Hj). replace ((ln (entries phi j) + 1) / l j) with (ln (entries phi j) / l j + 1 / l j) in E by (field; auto). lra. }
    rewrite (rsum_ext nc _ (fun b => (entries phi i * (x - flory_chis s o i j) / 2) * unit_vec i b)) in D.
    + rewrite rsum_scal_l in D.
      assert (U : rsum nc (unit_vec i) = 1).
      { pose proof (rsum_unit nc i (fun _ => 1) Hi) as U. rewrite <- U. apply rsum_ext. intros; ring. }
      rewrite U in D. specialize (Hphi i Hi). assert (entries phi i * (x - flory_chis s o i j) = 0) by lra.
      apply Rmult_integral in H. lra.
    + intros b Hb. unfold chi. rewrite !EC. unfold upd2, unit_vec.
      destruct (Nat.eqb_spec b i) as [->|Nb].
      * rewrite !Nat.eqb_refl. destruct (Nat.eqb_spec j i); [congruence|]. cbn [andb]. rewrite (HS j i) by auto. lra.
      * destruct (Nat.eqb_spec j i); [congruence|]. cbn [andb]. rewrite (HS b j) by auto. lra.
Qed.
