(** PropertiesPoly.v -- C78: polydispersed entropy objects. *)

From Coq Require Import Reals Lra Lia List Bool Arith ZArith.
From Verif Require Import Base ModelCommon ModelPhases ModelParts ModelObjects ProofsParts ModelPoly.
Import ListNotations.
Open Scope R_scope.

(* ------------------------------------------------------------------ *)
(** * Guarded loops *)

Section Guarded.
Context {A : Type} (idx : A -> nat) (nc : nat).

(** each iteration advances the index by [v r]; it fails iff the index would
    pass the end *)
Lemma guarded n (v : nat -> nat) (body : nat -> A -> res A) (pure : nat -> A -> A) s :
  (forall r x, (r < n)%nat -> (idx x <= nc)%nat ->
     body r x = if Nat.leb (idx x + v r) nc then Ok (pure r x) else Err IndexError) ->
  (forall r x, (r < n)%nat -> idx (pure r x) = (idx x + v r)%nat) -> (idx s <= nc)%nat ->
  for_res n body s = (if Nat.leb (idx s + nsum n v) nc then Ok (for_ n pure s) else Err IndexError) /\
  idx (for_ n pure s) = (idx s + nsum n v)%nat.
Proof.
  induction n as [|n IH]; intros HB HP Hs.
  - cbn. rewrite Nat.add_0_r, (proj2 (Nat.leb_le _ _) Hs). auto.
  - destruct IH as (E & I); [intros; apply HB; lia|intros; apply HP; lia|exact Hs|].
    cbn [for_res nsum]. rewrite for_S, HP, I by lia. split; [|lia]. rewrite E.
    destruct (Nat.leb_spec (idx s + nsum n v) nc) as [L|L]; cbn [bind].
    + rewrite HB by (auto; lia). rewrite I. rewrite <- Nat.add_assoc. reflexivity.
    + destruct (Nat.leb_spec (idx s + (nsum n v + v n)) nc) as [L2|L2]; [lia|reflexivity].
Qed.

(** loops accessing one entry per iteration *)
Lemma guarded_unit n (f : A -> A) s : (forall x, idx (f x) = S (idx x)) -> (idx s <= nc)%nat ->
  for_res n (fun _ x => if Nat.ltb (idx x) nc then Ok (f x) else Err IndexError) s =
    (if Nat.leb (idx s + n) nc then Ok (for_ n (fun _ => f) s) else Err IndexError) /\
  idx (for_ n (fun _ => f) s) = (idx s + n)%nat.
Proof.
  intros HF Hs.
  assert (N : nsum n (fun _ => 1%nat) = n) by (induction n as [|n IH]; cbn; lia).
  pose proof (guarded n (fun _ => 1%nat) (fun _ x => if Nat.ltb (idx x) nc then Ok (f x) else Err IndexError) (fun _ => f) s) as G.
  rewrite N in G. apply G.
  - intros r x _ _. rewrite Nat.add_1_r. reflexivity.
  - intros r x _. rewrite HF. lia.
  - exact Hs.
Qed.
End Guarded.

Lemma for_res_ext {A} n (f g : nat -> A -> res A) s : (forall i x, f i x = g i x) -> for_res n f s = for_res n g s.
Proof. intros H. induction n as [|n IH]; [reflexivity|]. cbn. rewrite IH. destruct (for_res n g s); cbn; auto. Qed.

(** visits of the two loops *)
Definition visits_part (c : nat -> Z) (r : nat) : nat := Z.to_nat (c r).
Definition visits_feat (c : nat -> Z) (r : nat) : nat := S (Z.to_nat (c r - 1)).

Lemma partition_checked_eq nc nf c sizes np phis w J :
  partition_checked nc nf c sizes np phis w J =
    if Reqb (rsum np J) 0 then Err ZeroDivisionError
    else if Nat.leb (nsum nf (visits_part c)) nc then pg_partition nf (fun r => Z.to_nat (c r)) sizes np phis w J
    else Err IndexError.
Proof.
  unfold partition_checked, pg_partition. destruct (Reqb (rsum np J) 0) eqn:E0; [reflexivity|].
  set (idx := fun x : nat * mat * vec => fst (fst x)).
  set (step := fun r (x : nat * mat * vec) => let '(i, phis, Qs) := x in
     (S i, upd_row phis i (fun m => boltzmann (w r m) (sizes i)), upd Qs i (rsum np (fun m => boltzmann (w r m) (sizes i) * J m) / rsum np J))).
  assert (HU : forall r x, idx (step r x) = S (idx x)) by (intros r [[i p] Q]; reflexivity).
  assert (HI : forall r x, for_res (Z.to_nat (c r)) (fun _ '(i, phis, Qs) => if Nat.ltb i nc then
            let row := fun m => boltzmann (w r m) (sizes i) in
            Ok (S i, upd_row phis i row, upd Qs i (rsum np (fun m => row m * J m) / rsum np J)) else Err IndexError) x
       = for_res (Z.to_nat (c r)) (fun _ x => if Nat.ltb (idx x) nc then Ok (step r x) else Err IndexError) x).
  { intros r x. apply for_res_ext. intros _ [[i p] Q]. reflexivity. }
  match goal with |- context [for_res nf ?f ?s] =>
    replace (for_res nf f s) with (for_res nf (fun r x => for_res (Z.to_nat (c r)) (fun _ x => if Nat.ltb (idx x) nc then Ok (step r x) else Err IndexError) x) s)
      by (symmetry; apply for_res_ext; exact HI) end.
  destruct (guarded idx nc nf (visits_part c) (fun r x => for_res (Z.to_nat (c r)) (fun _ x => if Nat.ltb (idx x) nc then Ok (step r x) else Err IndexError) x)
     (fun r x => for_ (Z.to_nat (c r)) (fun _ => step r) x) (O, phis, fun _ : nat => 0)) as (E & _).
  - intros r x _ Hx. exact (proj1 (guarded_unit idx nc (Z.to_nat (c r)) (step r) x (HU r) Hx)).
  - intros r x _. assert (G : forall n, idx (for_ n (fun _ => step r) x) = (idx x + n)%nat).
    { induction n as [|n IHn]; [cbn; lia|]. rewrite for_S, HU, IHn. lia. }
    apply G.
  - cbn. lia.
  - rewrite E. cbn [idx fst Nat.add]. destruct (Nat.leb (nsum nf (visits_part c)) nc); [|reflexivity].
    match goal with |- (let* (_, _) := Ok (for_ nf ?f ?s) in _) = (let '(_, _) := for_ nf ?g ?s' in _) => replace (for_ nf g s') with (for_ nf f s) end.
    + cbn [bind]. destruct (for_ nf _ _) as [[i p] Q]. reflexivity.
    + apply for_ext. intros r x _. apply for_ext. intros _ [[i p] Q] _. reflexivity.
Qed.

Lemma comp_to_feat_checked_eq nc nf c pf pc :
  comp_to_feat_checked nc nf c pf pc =
    if Nat.leb (nsum nf (visits_feat c)) nc then Ok (pg_comp_to_feat nf (fun r => Z.to_nat (c r)) pf pc) else Err IndexError.
Proof.
  unfold comp_to_feat_checked, pg_comp_to_feat.
  set (idx := fun x : nat * mat => fst x).
  set (first := fun r (x : nat * mat) => (S (fst x), upd_row (snd x) r (pc (fst x)))).
  set (step := fun r (x : nat * mat) => (S (fst x), upd_row (snd x) r (fun m => snd x r m + pc (fst x) m))).
  assert (HU : forall r x, idx (step r x) = S (idx x)) by (intros; reflexivity).
  assert (HN : forall r n x, idx (for_ n (fun _ => step r) x) = (idx x + n)%nat).
  { intros r. induction n as [|n IHn]; intros x; [cbn; lia|]. rewrite for_S, HU, IHn. lia. }
  rewrite (for_res_ext nf _ (fun r x => let* st := if Nat.ltb (idx x) nc then Ok (first r x) else Err IndexError in
     for_res (Z.to_nat (c r - 1)) (fun _ x => if Nat.ltb (idx x) nc then Ok (step r x) else Err IndexError) st)).
  2: { intros r [i f]. cbn [idx fst]. destruct (Nat.ltb i nc); [|reflexivity]. cbn [bind]. apply for_res_ext. intros _ [i' f']. reflexivity. }
  destruct (guarded idx nc nf (visits_feat c) (fun r x => let* st := if Nat.ltb (idx x) nc then Ok (first r x) else Err IndexError in
     for_res (Z.to_nat (c r - 1)) (fun _ x => if Nat.ltb (idx x) nc then Ok (step r x) else Err IndexError) st)
     (fun r x => for_ (Z.to_nat (c r - 1)) (fun _ => step r) (first r x)) (O, pf)) as (E & _).
  - intros r x _ Hx. unfold visits_feat. destruct (Nat.ltb_spec (idx x) nc) as [L|L]; cbn [bind].
    + destruct (guarded_unit idx nc (Z.to_nat (c r - 1)) (step r) (first r x) (HU r)) as (G & _); [cbn; unfold idx in L; lia|].
      rewrite G. replace (idx x + S (Z.to_nat (c r - 1)))%nat with (idx (first r x) + Z.to_nat (c r - 1))%nat by (cbn; unfold idx; lia). reflexivity.
    + destruct (Nat.leb_spec (idx x + S (Z.to_nat (c r - 1))) nc) as [L2|L2]; [lia|reflexivity].
  - intros r x _. rewrite HN. cbn. unfold visits_feat, idx. lia.
  - cbn. lia.
  - rewrite E. cbn [idx fst Nat.add]. destruct (Nat.leb (nsum nf (visits_feat c)) nc); [|reflexivity].
    match goal with |- (let* (_, _) := Ok (for_ nf ?f ?s) in _) = Ok (snd (for_ nf ?g ?s')) => replace (for_ nf g s') with (for_ nf f s) end.
    + cbn [bind]. destruct (for_ nf _ _) as [i f]. reflexivity.
    + apply for_ext. intros r [i f] _. rewrite Z2Nat.inj_sub by lia. change (Z.to_nat 1) with 1%nat. cbn [first fst snd].
      apply for_ext. intros _ [i' f'] _. reflexivity.
Qed.

Lemma visits_part_le n c : (isum n c <= Z.of_nat (nsum n (visits_part c)))%Z /\
  ((Z.of_nat (nsum n (visits_part c)) <= isum n c)%Z <-> forall r, (r < n)%nat -> (0 <= c r)%Z).
Proof.
  induction n as [|n (L & IFF)]; cbn [isum nsum]; [split; [lia|split; intros; lia]|].
  unfold visits_part at 2 4. split; [lia|]. split.
  - intros H r Hr. assert (0 <= c n)%Z by lia. destruct (Nat.eq_dec r n) as [->|]; [assumption|]. apply (proj1 IFF); lia.
  - intros H. pose proof (proj2 IFF ltac:(intros; apply H; lia)). pose proof (H n ltac:(lia)). lia.
Qed.

Lemma visits_feat_le n c : (isum n c <= Z.of_nat (nsum n (visits_feat c)))%Z /\
  ((Z.of_nat (nsum n (visits_feat c)) <= isum n c)%Z <-> forall r, (r < n)%nat -> (1 <= c r)%Z).
Proof.
  induction n as [|n (L & IFF)]; cbn [isum nsum]; [split; [lia|split; intros; lia]|].
  unfold visits_feat at 2 4. split; [lia|]. split.
  - intros H r Hr. assert (1 <= c n)%Z by lia. destruct (Nat.eq_dec r n) as [->|]; [assumption|]. apply (proj1 IFF); lia.
  - intros H. pose proof (proj2 IFF ltac:(intros; apply H; lia)). pose proof (H n ltac:(lia)). lia.
Qed.

(* ------------------------------------------------------------------ *)
(** * C78 *)

Lemma as_list_length n b : length (as_list n b) = n.
Proof. unfold as_list. now rewrite map_length, seq_length. Qed.

(** the object matches its counts *)
Definition matched (o : peo) : Prop := Z.of_nat (length (pe_sizes o)) = isum (pe_nf o) (pe_counts o) /\ pe_nc o = length (pe_sizes o).

(** Acceptance by the constructor. *)
Theorem C78_new nf t counts sizes b : convert_and_broadcast counts [nf] = Ok b ->
  let c := fun r => Int_part (nd_at b [r]) in
  match pe_new nf t counts sizes with
  | Ok o => t = DInt /\ matched o /\ pe_nf o = nf /\ (forall r, (r < nf)%nat -> pe_counts o r = c r) /\
            match sizes with
            | None => forall x, In x (pe_sizes o) -> x = 1
            | Some a => exists l, convert_and_broadcast a [pe_nc o] = Ok l /\ forall i, (i < pe_nc o)%nat -> nth i (pe_sizes o) 0 = nd_at l [i]
            end
  | Err e => (t = DFloat /\ e = TypeError) \/ (t = DInt /\ (isum nf c < 0)%Z /\ e = ValueError) \/
             (t = DInt /\ (0 <= isum nf c)%Z /\ exists a, sizes = Some a /\ convert_and_broadcast a [Z.to_nat (isum nf c)] = Err e)
  end.
Proof.
  intros HB. cbv zeta. unfold pe_new. rewrite HB. cbn [bind]. destruct t; [|left; auto].
  set (c := fun r => Int_part (nd_at b [r])). destruct (Z.ltb_spec (isum nf c) 0) as [L|L]; [right; left; auto|].
  destruct sizes as [a|].
  - destruct (convert_and_broadcast a [Z.to_nat (isum nf c)]) as [l|e] eqn:EA; cbn [bind].
    + split; [reflexivity|]. unfold matched. cbn [pe_sizes pe_nf pe_counts pe_nc]. rewrite as_list_length. split; [split; [lia|reflexivity]|].
      split; [reflexivity|]. split; [reflexivity|]. exists l. split; [exact EA|]. intros i Hi. unfold as_list.
      rewrite (nth_indep _ 0 (nd_at l [O])) by (rewrite map_length, seq_length; exact Hi).
      rewrite (map_nth (fun i => nd_at l [i])), seq_nth by exact Hi. reflexivity.
    + right. right. split; [reflexivity|]. split; [exact L|]. eauto.
  - split; [reflexivity|]. unfold matched. cbn [pe_sizes pe_nf pe_counts pe_nc]. rewrite repeat_length. split; [split; [lia|reflexivity]|].
    split; [reflexivity|]. split; [reflexivity|]. intros x Hx. now apply repeat_spec in Hx.
Qed.

(** Assigning sizes, successfully or not, any number of times keeps the object
    matched, with the same features. *)
Theorem C78_history o xs : matched o -> (forall x, In x xs -> exists a, x = PSizes a) ->
  let o' := fold_left pe_do xs o in matched o' /\ pe_nf o' = pe_nf o /\ pe_counts o' = pe_counts o /\ pe_nc o' = pe_nc o.
Proof.
  revert o. induction xs as [|x xs IH]; intros o HM HX; [auto|]. cbn [fold_left].
  assert (HS : matched (pe_do o x) /\ pe_nf (pe_do o x) = pe_nf o /\ pe_counts (pe_do o x) = pe_counts o /\ pe_nc (pe_do o x) = pe_nc o).
  { destruct (HX x (or_introl eq_refl)) as (a & ->). cbn [pe_do]. unfold pe_set_sizes.
    destruct (convert_and_broadcast a [pe_nc o]) as [l|e]; cbn [bind]; [|auto]. unfold matched in *. cbn [pe_sizes pe_nf pe_counts pe_nc].
    rewrite as_list_length. destruct HM as (H1 & H2). repeat split; auto. rewrite H2. exact H1. }
  destruct HS as (S1 & S2 & S3 & S4). destruct (IH (pe_do o x) S1 ltac:(intros; apply HX; now right)) as (I1 & I2 & I3 & I4).
  cbv zeta. split; [exact I1|]. split; [now rewrite I2|]. split; [now rewrite I3|now rewrite I4].
Qed.

(** The partition loop stays within its arrays iff no count is negative, the
    conversion to features iff every feature has a component; then they compute
    what the unchecked loops compute. *)
Theorem C78_partition o : matched o ->
  (forall r, (r < pe_nf o)%nat -> (0 <= pe_counts o r)%Z) <->
  (forall np phis w J, pe_partition o np phis w J <> Err IndexError).
Proof.
  intros (HM & _). unfold pe_partition. rewrite <- (proj2 (visits_part_le (pe_nf o) (pe_counts o))), <- HM. split.
  - intros H np phis w J. rewrite partition_checked_eq. destruct (Reqb (rsum np J) 0); [discriminate|].
    rewrite (proj2 (Nat.leb_le _ _)) by lia. unfold pg_partition. destruct (Reqb (rsum np J) 0); [discriminate|].
    destruct (for_ _ _ _) as [[? ?] ?]. discriminate.
  - intros H. specialize (H 1%nat (fun _ _ => 0) (fun _ _ => 0) (fun _ => 1)). rewrite partition_checked_eq in H.
    rewrite (proj2 (Reqb_false _ _)) in H by (cbn; lra).
    destruct (Nat.leb_spec (nsum (pe_nf o) (visits_part (pe_counts o))) (length (pe_sizes o))) as [L|L]; [lia|congruence].
Qed.

Theorem C78_features o : matched o ->
  (forall r, (r < pe_nf o)%nat -> (1 <= pe_counts o r)%Z) <-> (forall pf pc, pe_comp_to_feat o pf pc <> Err IndexError).
Proof.
  intros (HM & _). unfold pe_comp_to_feat. rewrite <- (proj2 (visits_feat_le (pe_nf o) (pe_counts o))), <- HM. split.
  - intros H pf pc. rewrite comp_to_feat_checked_eq, (proj2 (Nat.leb_le _ _)) by lia. discriminate.
  - intros H. specialize (H (fun _ _ => 0) (fun _ _ => 0)). rewrite comp_to_feat_checked_eq in H.
    destruct (Nat.leb_spec (nsum (pe_nf o) (visits_feat (pe_counts o))) (length (pe_sizes o))) as [L|L]; [lia|congruence].
Qed.

Theorem C78_compiled o : matched o -> (forall r, (r < pe_nf o)%nat -> (1 <= pe_counts o r)%Z) ->
  (forall np phis w J, pe_partition o np phis w J = s_partition (pe_compiled o) np phis w J) /\
  (forall pf pc, pe_comp_to_feat o pf pc = Ok (s_comp_to_feat (pe_compiled o) pf pc)).
Proof.
  intros (HM & _) HC. split.
  - intros. unfold pe_partition. rewrite partition_checked_eq. cbn [pe_compiled s_partition pg_compiled].
    pose proof (proj2 (proj2 (visits_part_le (pe_nf o) (pe_counts o))) ltac:(intros; specialize (HC r H); lia)).
    rewrite (proj2 (Nat.leb_le _ _)) by lia. unfold pg_partition. destruct (Reqb (rsum np J) 0); reflexivity.
  - intros. unfold pe_comp_to_feat. rewrite comp_to_feat_checked_eq.
    pose proof (proj2 (proj2 (visits_feat_le (pe_nf o) (pe_counts o))) HC). rewrite (proj2 (Nat.leb_le _ _)) by lia. reflexivity.
Qed.

(** From the constructor to the kernel: positive integer counts, any later
    assignments of sizes. *)
Theorem C78_safe nf counts sizes o xs : pe_new nf DInt counts sizes = Ok o ->
  (forall r, (r < nf)%nat -> (1 <= pe_counts o r)%Z) -> (forall x, In x xs -> exists a, x = PSizes a) ->
  let o' := fold_left pe_do xs o in
  s_comp (pe_compiled o') = pe_nc o /\ s_feat (pe_compiled o') = nf /\
  (forall np phis w J, pe_partition o' np phis w J = s_partition (pe_compiled o') np phis w J) /\
  (forall pf pc, pe_comp_to_feat o' pf pc = Ok (s_comp_to_feat (pe_compiled o') pf pc)).
Proof.
  intros HN HC HX. cbv zeta. unfold pe_new in HN. destruct (convert_and_broadcast counts [nf]) as [b|] eqn:HB; [|discriminate].
  pose proof (C78_new nf DInt counts sizes b HB) as P. cbv zeta in P. unfold pe_new in P. rewrite HB in P. rewrite HN in P.
  destruct P as (_ & HM & HF & _). destruct (C78_history o xs HM HX) as (M' & F' & C' & N'). cbv zeta in *.
  destruct (C78_compiled (fold_left pe_do xs o) M') as (P1 & P2).
  { rewrite F', C', HF. exact HC. }
  split; [cbn; rewrite <- N'; symmetry; exact (proj2 M')|]. split; [cbn; congruence|]. split; [exact P1|exact P2].
Qed.

(** Counts [3, -1] are accepted (two components); the loop then writes the
    third of two rows. *)
Definition bad_counts : nd := nd_of_vec [3; -1].

Lemma Int_part_IZR z : Int_part (IZR z) = z.
Proof.
  unfold Int_part. assert (up (IZR z) = (z + 1)%Z); [|lia]. symmetry. apply tech_up; rewrite plus_IZR; lra.
Qed.

Theorem C78_negative_refuted : exists o, pe_new 2 DInt bad_counts None = Ok o /\ matched o /\ pe_nc o = 2%nat /\
  forall np phis w J, rsum np J <> 0 -> pe_partition o np phis w J = Err IndexError.
Proof.
  unfold pe_new, bad_counts. cbn [convert_and_broadcast atleast_1d nd_of_vec nd_shape length broadcast_to rev app bc_ok Nat.eqb orb andb bind].
  set (c := fun r : nat => Int_part _).
  assert (C0 : c 0%nat = 3%Z) by (apply (Int_part_IZR 3)). assert (C1 : c 1%nat = (-1)%Z) by (apply (Int_part_IZR (-1))).
  assert (T : isum 2 c = 2%Z) by (cbn [isum]; rewrite C0, C1; reflexivity). rewrite T. cbn [Z.ltb Z.compare].
  eexists. split; [reflexivity|]. split; [|split; [reflexivity|]].
  - split; [cbn [pe_sizes pe_nf pe_counts]; rewrite T; reflexivity|reflexivity].
  - intros np phis w J HJ. unfold pe_partition. rewrite partition_checked_eq. cbn [pe_sizes pe_nf pe_counts].
    rewrite (proj2 (Reqb_false _ _) HJ).
    assert (V : nsum 2 (visits_part c) = 3%nat) by (cbn [nsum]; unfold visits_part; rewrite C0, C1; reflexivity). rewrite V. reflexivity.
Qed.

(** [num_comp] can be assigned; sizes set afterwards have the new length, the
    counts stay, and the last component has no partition function. *)
Theorem C78_num_comp_refuted : exists o, pe_new 2 DInt (nd_of_vec [2; 1]) None = Ok o /\
  let o' := fold_left pe_do [PNumComp 4; PSizes (nd_of_vec [1])] o in
  s_comp (pe_compiled o') = 4%nat /\ isum (pe_nf o') (pe_counts o') = 3%Z /\
  forall np phis w J phis' Qs, s_partition (pe_compiled o') np phis w J = Ok (phis', Qs) -> Qs 3%nat = 0.
Proof.
  unfold pe_new. cbn [convert_and_broadcast atleast_1d nd_of_vec nd_shape length broadcast_to rev app bc_ok Nat.eqb orb andb bind].
  set (c := fun r : nat => Int_part _).
  assert (C0 : c 0%nat = 2%Z) by (apply (Int_part_IZR 2)). assert (C1 : c 1%nat = 1%Z) by (apply (Int_part_IZR 1)).
  assert (T : isum 2 c = 3%Z) by (cbn [isum]; rewrite C0, C1; reflexivity). rewrite T. cbn [Z.ltb Z.compare].
  eexists. split; [reflexivity|]. cbv zeta. split; [reflexivity|]. split; [exact T|].
  intros np phis w J phis' Qs. cbn [fold_left pe_do pe_set_nc pe_set_sizes convert_and_broadcast atleast_1d nd_of_vec nd_shape length broadcast_to rev app bc_ok Nat.eqb orb andb bind
    pe_compiled s_partition pg_compiled pe_nf pe_counts pe_sizes pe_nc]. unfold pg_partition. destruct (Reqb (rsum np J) 0); [discriminate|].
  cbn [for_]. rewrite C0, C1. change (Z.to_nat 2) with 2%nat. change (Z.to_nat 1) with 1%nat. cbn [for_]. intros E. injection E as _ <-. reflexivity.
Qed.

(** a valid object: features of two and one components *)
Example case_C78 : exists o, pe_new 2 DInt (nd_of_vec [2; 1]) (Some (nd_of_vec [1; 5; 2])) = Ok o /\ pe_nc o = 3%nat /\
  (forall r, (r < 2)%nat -> (1 <= pe_counts o r)%Z).
Proof.
  unfold pe_new. cbn [convert_and_broadcast atleast_1d nd_of_vec nd_shape length broadcast_to rev app bc_ok Nat.eqb orb andb bind].
  set (c := fun r : nat => Int_part _).
  assert (C0 : c 0%nat = 2%Z) by (apply (Int_part_IZR 2)). assert (C1 : c 1%nat = 1%Z) by (apply (Int_part_IZR 1)).
  assert (T : isum 2 c = 3%Z) by (cbn [isum]; rewrite C0, C1; reflexivity). rewrite T. cbn [Z.ltb Z.compare].
  eexists. split; [reflexivity|]. split; [reflexivity|]. cbn [pe_counts]. intros [|[|r]] Hr; [rewrite C0|rewrite C1|]; lia.
Qed.
