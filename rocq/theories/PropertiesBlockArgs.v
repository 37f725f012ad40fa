(** PropertiesBlockArgs.v -- C100: the block interaction and the polydispersed
    entropy read [num_comp_per_feat] alike. *)

From Coq Require Import String Reals List Bool Arith ZArith Lra Lia.
From Verif Require Import Base ModelCommon ModelParts ModelKernel ModelObjects ModelPoly ModelBlockArgs
  ProofsParts PropertiesObjects PropertiesBroadcast PropertiesPoly ModelPhases.
Import ListNotations.
Open Scope R_scope.

(** component [i] belongs to feature [r] *)
Definition owner (nf : nat) (c : nat -> Z) (r i : nat) : Prop :=
  (r < nf)%nat /\ (isum r c <= Z.of_nat i < isum r c + c r)%Z.

Definition naturals (nf : nat) (c : nat -> Z) : list nat := map Z.to_nat (map c (seq 0 nf)).

Lemma naturals_length nf c : length (naturals nf c) = nf.
Proof. unfold naturals. now rewrite !map_length, seq_length. Qed.

Lemma naturals_nth nf c r : (r < nf)%nat -> nth r (naturals nf c) O = Z.to_nat (c r).
Proof.
  intros H. unfold naturals. rewrite map_map, (nth_indep _ O ((fun x => Z.to_nat (c x)) O)) by (now rewrite map_length, seq_length).
  rewrite (map_nth (fun x => Z.to_nat (c x))), seq_nth by lia. reflexivity.
Qed.

Lemma naturals_offset nf c r : (forall k, (k < nf)%nat -> (0 <= c k)%Z) -> (r <= nf)%nat ->
  Z.of_nat (offset (naturals nf c) r) = isum r c.
Proof.
  intros H. unfold offset. induction r as [|r IH]; intros Hr; [reflexivity|].
  assert (E : firstn (S r) (naturals nf c) = firstn r (naturals nf c) ++ [nth r (naturals nf c) O]).
  { clear -Hr. assert (L : (r < length (naturals nf c))%nat) by (rewrite naturals_length; lia).
    revert L. clear Hr. revert r. generalize (naturals nf c) as l. intros l. induction l as [|x l IHl]; intros r L; [simpl in L; lia|].
    destruct r; [reflexivity|]. cbn [firstn nth app]. f_equal. apply IHl. simpl in L. lia. }
  rewrite E, list_sum_app. cbn [list_sum fold_right]. rewrite naturals_nth by lia. cbn [isum].
  specialize (IH ltac:(lia)). specialize (H r ltac:(lia)). lia.
Qed.

Lemma naturals_block nf c r i : (forall k, (k < nf)%nat -> (0 <= c k)%Z) -> in_block (naturals nf c) r i <-> owner nf c r i.
Proof.
  intros H. unfold in_block, owner. rewrite naturals_length. split; intros [Hr Hi]; (split; [exact Hr|]);
    pose proof (naturals_offset nf c r H ltac:(lia)) as E; rewrite naturals_nth in * by exact Hr; specialize (H r Hr); lia.
Qed.

Lemma naturals_total nf c : (forall k, (k < nf)%nat -> (0 <= c k)%Z) -> Z.of_nat (list_sum (naturals nf c)) = isum nf c.
Proof.
  intros H. rewrite <- (naturals_offset nf c nf H (le_n _)). unfold offset.
  rewrite firstn_all2; [reflexivity|rewrite naturals_length; lia].
Qed.

Lemma nsum_isum c r : (forall k, (k < r)%nat -> (0 <= c k)%Z) -> Z.of_nat (nsum r (fun k => Z.to_nat (c k))) = isum r c.
Proof.
  induction r as [|r IH]; intros H; [reflexivity|]. cbn [nsum isum].
  rewrite Nat2Z.inj_add, IH by (intros; apply H; lia). specialize (H r ltac:(lia)). lia.
Qed.

(** every component below the total has exactly one owner *)
Theorem C100_owner nf c : (forall k, (k < nf)%nat -> (0 <= c k)%Z) ->
  forall i, (Z.of_nat i < isum nf c)%Z <-> exists r, owner nf c r i /\ forall r', owner nf c r' i -> r' = r.
Proof.
  intros H i. rewrite <- (naturals_total nf c H). split.
  - intros Hi. exists (block_of (naturals nf c) i).
    assert (B := block_of_in (naturals nf c) i ltac:(lia)). split; [now apply naturals_block|].
    intros r' Hr'. apply naturals_block in Hr'; [|exact H]. eapply in_block_unique; eassumption.
  - intros (r & (Hr & Hi) & _). rewrite (naturals_total nf c H).
    assert (M : forall k, (r < k <= nf)%nat -> (isum (S r) c <= isum k c)%Z).
    { intros k. induction k as [|k IH]; intros Hk; [lia|]. destruct (Nat.eq_dec r k) as [->|]; [lia|].
      specialize (IH ltac:(lia)). cbn [isum] in *. specialize (H k ltac:(lia)). lia. }
    specialize (M nf ltac:(lia)). cbn [isum] in M. lia.
Qed.

(** C100: what the constructor of the block interaction makes of the counts. *)
Theorem C100_counts s nf t counts a : nd_shape a = [nf; nf] ->
  let fine := nd_shape counts = [] \/ nd_shape counts = [1%nat] \/ nd_shape counts = [nf] in
  (~ fine -> block_make s nf t counts a = Err ValueError) /\
  (fine -> exists c,
     (forall r, (r < nf)%nat -> c r = Int_part (nd_at counts (match nd_shape counts with [] => [] | [w] => [pick w r] | _ => [r] end))) /\
     (~ nearly_symmetric nf (mat_of_nd a) -> block_make s nf t counts a = Err AttributeError) /\
     (nearly_symmetric nf (mat_of_nd a) -> t = DFloat -> block_make s nf t counts a = Err TypeError) /\
     (nearly_symmetric nf (mat_of_nd a) -> t = DInt -> (exists r, (r < nf)%nat /\ (c r < 0)%Z) ->
        block_make s nf t counts a = Err ValueError) /\
     (nearly_symmetric nf (mat_of_nd a) -> t = DInt -> (forall r, (r < nf)%nat -> (0 <= c r)%Z) ->
        exists s' o, block_make s nf t counts a = Ok (s', o) /\
          bo_nf o = nf /\ Z.of_nat (bo_nc o) = isum nf c /\
          (forall r, (r < nf)%nat -> Z.of_nat (nth r (bo_npf o) O) = c r) /\ length (bo_npf o) = nf /\
          (forall r q, (r < nf)%nat -> (q < nf)%nat ->
             z_at (st_cell s' (bo_feat o)) r q = (nd_at a [r; q] + nd_at a [q; r]) / 2) /\
          (forall i j r q, owner nf c r i -> owner nf c q j ->
             z_at (st_cell s' (bo_chis o)) i j = z_at (st_cell s' (bo_feat o)) r q))).
Proof.
  intros Ha fine. destruct (C34_vector counts nf) as (V0 & V1 & Vn & Vx). split.
  { intros H. unfold block_make. rewrite Vx; [reflexivity| | |]; intros E; apply H; unfold fine; tauto. }
  intros H.
  assert (B : exists b, convert_and_broadcast counts [nf] = Ok b /\
     forall r, (r < nf)%nat -> nd_at b [r] = nd_at counts (match nd_shape counts with [] => [] | [w] => [pick w r] | _ => [r] end)).
  { assert (I : forall r, (r < nf)%nat -> Forall2 lt [r] [nf]) by (intros; repeat constructor; assumption).
    destruct H as [H|[H|H]]; rewrite H.
    - destruct (V0 H) as (b & E & _ & N). exists b. split; [exact E|]. intros r Hr. now rewrite N by auto.
    - destruct (V1 H) as (b & E & _ & N). exists b. split; [exact E|]. intros r Hr. now rewrite N by auto.
    - destruct (Vn H) as (b & E & _ & N). exists b. split; [exact E|]. intros r Hr. rewrite N by auto. unfold pick.
      destruct (Nat.eqb_spec nf 1); [|reflexivity]. now replace r with O by lia. }
  destruct B as (b & EB & NB). exists (fun r => Int_part (nd_at b [r])). split.
  { intros r Hr. now rewrite NB by exact Hr. }
  set (c := fun r => Int_part (nd_at b [r])). fold (naturals nf c).
  assert (U : block_make s nf t counts a =
    let* r := block_new s nf a (naturals nf c) in
    match t with DFloat => Err TypeError | DInt => if existsb (fun z => z <? 0)%Z (map c (seq 0 nf)) then Err ValueError else Ok r end).
  { unfold block_make. rewrite EB. reflexivity. }
  rewrite U. split.
  { intros N. rewrite C37_asymmetric_refuted; [reflexivity|exact Ha|apply naturals_length|exact N]. }
  assert (K : nearly_symmetric nf (mat_of_nd a) -> _) by exact (C37_constructor s nf a (naturals nf c) Ha (naturals_length nf c)).
  split; [|split].
  - intros N ->. destruct (K N) as (s1 & o & E & _). now rewrite E.
  - intros N -> (r & Hr & Hc). destruct (K N) as (s1 & o & E & _). rewrite E. cbn [bind].
    replace (existsb _ _) with true; [reflexivity|]. symmetry. apply existsb_exists. exists (c r). split.
    + apply in_map, in_seq. lia.
    + now apply Z.ltb_lt.
  - intros N -> Hc. change (forall r, (r < nf)%nat -> (0 <= c r)%Z) in Hc. destruct (K N) as (s1 & o & E & EN & EF & EC). exists s1, o. rewrite E. cbn [bind].
    replace (existsb _ _) with false; [split; [reflexivity|]|].
    2:{ symmetry. apply not_true_is_false. intros X. apply existsb_exists in X. destruct X as (z & Iz & Hz).
        apply in_map_iff in Iz. destruct Iz as (r & <- & Ir). apply in_seq in Ir. apply Z.ltb_lt in Hz. specialize (Hc r ltac:(lia)). lia. }
    assert (O : bo_nf o = nf /\ bo_npf o = naturals nf c).
    { clear -E. unfold block_new in E. destruct (negb _); [discriminate|]. destruct (convert_and_broadcast a [nf; nf]); cbn [bind] in E; [|discriminate].
      destruct (if allclose_T _ _ then _ else _); cbn in E; [|discriminate]. injection E as <- <-. split; reflexivity. }
    destruct O as [O1 O2]. split; [exact O1|]. split; [rewrite EN; now apply naturals_total|]. split.
    { intros r Hr. rewrite O2, naturals_nth by exact Hr. specialize (Hc r Hr). change (Z.of_nat (Z.to_nat (c r)) = c r). lia. }
    split; [rewrite O2; apply naturals_length|]. split; [exact EF|].
    intros i j r q Hi Hj. apply EC; apply naturals_block; assumption.
Qed.

(** The two objects of a mixture, given the same counts, agree: number of
    components, counts, and the feature of every component -- the fractions of
    component [i] follow the field of the feature whose entries make up row [i]
    of the interaction matrix. *)
Theorem C100_agree s nf counts a sizes s' o e : nd_shape a = [nf; nf] ->
  block_make s nf DInt counts a = Ok (s', o) -> pe_new nf DInt counts sizes = Ok e ->
  pe_nc e = bo_nc o /\ pe_nf e = bo_nf o /\
  (forall r, (r < nf)%nat -> pe_counts e r = Z.of_nat (nth r (bo_npf o) O)) /\
  s_comp (pe_compiled e) = bo_nc o /\ s_feat (pe_compiled e) = nf /\
  forall i, (i < bo_nc o)%nat -> exists r, (r < nf)%nat /\
    (forall j q, owner nf (pe_counts e) q j -> z_at (st_cell s' (bo_chis o)) i j = z_at (st_cell s' (bo_feat o)) r q) /\
    (forall np phis w J phis' Qs, s_partition (pe_compiled e) np phis w J = Ok (phis', Qs) ->
       forall m, phis' i m = exp (- (w r m * nth i (pe_sizes e) 0))).
Proof.
  intros Ha Hb He. destruct (C100_counts s nf DInt counts a Ha) as [X Y].
  assert (F : nd_shape counts = [] \/ nd_shape counts = [1%nat] \/ nd_shape counts = [nf]).
  { destruct (list_eq_dec Nat.eq_dec (nd_shape counts) []) as [|N0]; [auto|].
    destruct (list_eq_dec Nat.eq_dec (nd_shape counts) [1%nat]) as [|N1]; [auto|].
    destruct (list_eq_dec Nat.eq_dec (nd_shape counts) [nf]) as [|N2]; [auto|].
    rewrite X in Hb by tauto. discriminate. }
  destruct (Y F) as (c & Ec & Z1 & Z2 & Z3 & Z4).
  assert (NS : nearly_symmetric nf (mat_of_nd a)).
  { destruct (allclose_T nf (mat_of_nd a)) eqn:E; [now apply allclose_spec|]. exfalso.
    rewrite Z1 in Hb; [discriminate|]. intros N. apply allclose_spec in N. congruence. }
  assert (NN : forall r, (r < nf)%nat -> (0 <= c r)%Z).
  { intros r Hr. destruct (Z_lt_le_dec (c r) 0) as [L|]; [|assumption]. exfalso. rewrite Z3 in Hb by eauto. discriminate. }
  destruct (Z4 NS eq_refl NN) as (s1 & o1 & E1 & O1 & O2 & O3 & O4 & O5 & O6).
  rewrite Hb in E1. injection E1 as <- <-.
  destruct (convert_and_broadcast counts [nf]) as [b|] eqn:EB; [|unfold pe_new in He; rewrite EB in He; discriminate].
  pose proof (C78_new nf DInt counts sizes b EB) as P. rewrite He in P. destruct P as (_ & [M1 M2] & P3 & P4 & _).
  assert (EQ : forall r, (r < nf)%nat -> pe_counts e r = c r).
  { intros r Hr. rewrite P4, Ec by exact Hr. f_equal.
    destruct (C34_vector counts nf) as (V0 & V1 & Vn & _).
    assert (I : Forall2 lt [r] [nf]) by (repeat constructor; assumption).
    destruct F as [F|[F|F]]; rewrite F.
    - destruct (V0 F) as (b' & E' & _ & N). rewrite EB in E'. injection E' as <-. now rewrite N.
    - destruct (V1 F) as (b' & E' & _ & N). rewrite EB in E'. injection E' as <-. now rewrite N.
    - destruct (Vn F) as (b' & E' & _ & N). rewrite EB in E'. injection E' as <-. rewrite N by exact I. unfold pick.
      destruct (Nat.eqb_spec nf 1); [|reflexivity]. now replace r with O by lia. }
  assert (SUM : forall k, (k <= nf)%nat -> isum k (pe_counts e) = isum k c).
  { intros k. induction k as [|k IH]; intros Hk; [reflexivity|]. cbn [isum]. rewrite IH, EQ by lia. reflexivity. }
  assert (OW : forall r i, owner nf (pe_counts e) r i <-> owner nf c r i).
  { intros r i. unfold owner. split; intros [Hr Hi]; (split; [exact Hr|]); rewrite ?SUM, ?EQ in * by lia; exact Hi. }
  assert (NC : length (pe_sizes e) = bo_nc o).
  { rewrite P3 in M1. rewrite SUM in M1 by lia. lia. }
  split; [congruence|]. split; [congruence|]. split; [intros r Hr; rewrite EQ, O3 by exact Hr; reflexivity|].
  split; [exact NC|]. split; [exact P3|].
  intros i Hi. destruct (proj1 (C100_owner nf c NN i)) as (r & Hr & _); [lia|].
  exists r. split; [apply Hr|]. split.
  - intros j q Hq. apply O6; [exact Hr|now apply OW].
  - intros np phis w J phis' Qs HP m. cbn in HP. apply pg_partition_spec in HP. destruct HP as (_ & HB & _).
    destruct Hr as [Hr Hi'].
    assert (OF : Z.of_nat (nsum r (fun k => Z.to_nat (pe_counts e k))) = isum r c).
    { rewrite nsum_isum, SUM by (try (intros; rewrite EQ by lia; apply NN; lia); lia). reflexivity. }
    specialize (HB r (i - nsum r (fun k => Z.to_nat (pe_counts e k)))%nat m ltac:(rewrite P3; exact Hr)).
    rewrite EQ in HB by exact Hr. specialize (HB ltac:(lia)).
    replace (nsum r (fun k => Z.to_nat (pe_counts e k)) + (i - nsum r (fun k => Z.to_nat (pe_counts e k))))%nat with i in HB by lia.
    rewrite HB. unfold boltzmann. f_equal. ring.
Qed.

(** Counts that suit the interaction suit the entropy, *)
Theorem C100_entropy s nf counts a s' o : nd_shape a = [nf; nf] ->
  block_make s nf DInt counts a = Ok (s', o) -> exists e, pe_new nf DInt counts None = Ok e.
Proof.
  intros Ha Hb. unfold block_make in Hb. unfold pe_new.
  destruct (convert_and_broadcast counts [nf]) as [b|]; cbn [bind] in *; [|discriminate].
  destruct (block_new s nf a _) as [r|]; cbn [bind] in Hb; [|discriminate].
  destruct (existsb _ _) eqn:X; [discriminate|].
  set (c := fun r => Int_part (nd_at b [r])) in *.
  assert (NN : (0 <= isum nf c)%Z).
  { assert (P : forall k, (k < nf)%nat -> (0 <= c k)%Z).
    { intros k Hk. destruct (Z_lt_le_dec (c k) 0) as [L|]; [|assumption]. exfalso.
      assert (existsb (fun z => (z <? 0)%Z) (map c (seq 0 nf)) = true); [|congruence].
      apply existsb_exists. exists (c k). split; [apply in_map, in_seq; lia|now apply Z.ltb_lt]. }
    rewrite <- (naturals_total nf c P). lia. }
  destruct (Z.ltb_spec (isum nf c) 0); [lia|]. eauto.
Qed.

(** but not conversely: with a negative count the interaction cannot be made
    while the entropy is accepted (and then reads beyond its arrays,
    C78_negative_refuted). *)
Theorem C100_same_errors_refuted s a : nd_shape a = [2; 2]%nat -> nearly_symmetric 2 (mat_of_nd a) ->
  block_make s 2 DInt (nd_of_vec [3; -1]) a = Err ValueError /\
  exists e, pe_new 2 DInt (nd_of_vec [3; -1]) None = Ok e.
Proof.
  intros Ha NS. split.
  - destruct (C100_counts s 2 DInt (nd_of_vec [3; -1]) a Ha) as [_ Y]. destruct Y as (c & Ec & _ & _ & Z3 & _); [now right; right|].
    apply Z3; [exact NS|reflexivity|]. exists 1%nat. split; [lia|]. rewrite Ec by lia. cbn.
    change (-1) with (IZR (-1)). rewrite Int_part_IZR. lia.
  - destruct C78_negative_refuted as (e & E & _). exists e. exact E.
Qed.

(** A case: two features with two and one components. *)
Example C100_case s : exists s' o e, block_make s 2 DInt (nd_of_vec [2; 1]) (nd_of_rows [[0; 3]; [3; 0]] 2) = Ok (s', o) /\
  pe_new 2 DInt (nd_of_vec [2; 1]) None = Ok e /\ bo_nc o = 3%nat /\ z_at (st_cell s' (bo_chis o)) 1%nat 2%nat = 3.
Proof.
  set (a := nd_of_rows [[0; 3]; [3; 0]] 2). assert (Ha : nd_shape a = [2; 2]%nat) by reflexivity.
  assert (I : forall r, (r < 2)%nat -> Int_part (nth r [2; 1] 0) = nth r [2; 1]%Z 0%Z).
  { intros [|[|r]] Hr; [apply (Int_part_IZR 2)|apply (Int_part_IZR 1)|lia]. }
  destruct (C100_counts s 2 DInt (nd_of_vec [2; 1]) a Ha) as [_ Y]. destruct Y as (c & Ec & _ & _ & _ & Z4); [now right; right|].
  assert (E : forall r, (r < 2)%nat -> c r = nth r [2; 1]%Z 0%Z) by (intros r Hr; rewrite Ec by exact Hr; cbn -[nth Int_part]; apply I; exact Hr).
  assert (NS : nearly_symmetric 2 (mat_of_nd a)).
  { intros i j Hi Hj. replace (mat_of_nd a i j) with (mat_of_nd a j i).
    - rewrite Rminus_diag_eq, Rabs_R0 by reflexivity. pose proof (Rabs_pos (mat_of_nd a j i)). lra.
    - destruct i as [|[|]], j as [|[|]]; try lia; reflexivity. }
  destruct (Z4 NS eq_refl) as (s' & o & E1 & _ & E2 & _ & _ & E3 & E4).
  { intros [|[|r]] Hr; try lia; rewrite E by lia; cbn; lia. }
  destruct (C100_entropy _ _ _ _ _ _ Ha E1) as (e & Ee). exists s', o, e. split; [exact E1|]. split; [exact Ee|].
  cbn [isum] in E2. rewrite !E in E2 by lia. cbn in E2. split; [lia|].
  rewrite (E4 1%nat 2%nat 0%nat 1%nat).
  - rewrite E3 by lia. cbn. lra.
  - split; [lia|]. cbn [isum]. rewrite E by lia. cbn. lia.
  - split; [lia|]. cbn [isum]. rewrite !E by lia. cbn. lia.
Qed.
