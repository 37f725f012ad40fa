(** PropertiesSharing.v -- C75: which arrays Phases objects share. *)

From Coq Require Import String Reals Lra Lia List Bool Arith ZArith.
From Verif Require Import Base ModelCommon ModelKernel ModelPhases ProofsPhases PropertiesPhases ModelSharing.
Import ListNotations.
Open Scope R_scope.

(* ------------------------------------------------------------------ *)
(** * Well-formed stores *)

(** every object refers to existing arrays of fitting shapes *)
Definition sane (s : store) : Prop :=
  forall o v f, nth_error (z_objs s) o = Some (v, f) ->
    (v < z_next s)%nat /\ (f < z_next s)%nat /\ exists n c, fitting (z_arr s v) (z_arr s f) n c.

(** later stores keep objects and shapes *)
Definition grows (s s' : store) : Prop :=
  (z_next s <= z_next s')%nat /\ (exists l, z_objs s' = z_objs s ++ l) /\
  (forall a, (a < z_next s)%nat -> nd_shape (z_arr s' a) = nd_shape (z_arr s a)).
(** ... and contents *)
Definition extends (s s' : store) : Prop :=
  (z_next s <= z_next s')%nat /\ (exists l, z_objs s' = z_objs s ++ l) /\
  (forall a, (a < z_next s)%nat -> z_arr s' a = z_arr s a).

Lemma extends_refl s : extends s s.
Proof. split; [lia|]. split; [exists []; now rewrite app_nil_r|auto]. Qed.
Lemma extends_trans a b c : extends a b -> extends b c -> extends a c.
Proof.
  intros (A1 & (l & A2) & A3) (B1 & (l' & B2) & B3). split; [lia|]. split.
  - exists (l ++ l'). rewrite B2, A2. symmetry. apply app_assoc.
  - intros x Hx. rewrite B3 by lia. auto.
Qed.
Lemma extends_grows s s' : extends s s' -> grows s s'.
Proof. intros (A & B & C). split; [exact A|]. split; [exact B|]. intros a Ha. now rewrite C. Qed.
Lemma grows_trans a b c : grows a b -> grows b c -> grows a c.
Proof.
  intros (A1 & (l & A2) & A3) (B1 & (l' & B2) & B3). split; [lia|]. split.
  - exists (l ++ l'). rewrite B2, A2. symmetry. apply app_assoc.
  - intros x Hx. rewrite B3 by lia. auto.
Qed.

Lemma grows_obj s s' o vf : grows s s' -> nth_error (z_objs s) o = Some vf -> nth_error (z_objs s') o = Some vf.
Proof. intros (_ & (l & E) & _) H. rewrite E, nth_error_app1; [exact H|]. apply nth_error_Some. congruence. Qed.

Lemma extends_look s s' o : sane s -> extends s s' -> (o < length (z_objs s))%nat -> look s' o = look s o.
Proof.
  intros HS HE Ho. unfold look. destruct (nth_error (z_objs s) o) as [[v f]|] eqn:E.
  - rewrite (grows_obj s s' o (v, f) (extends_grows _ _ HE) E). destruct (HS _ _ _ E) as (A & B & _).
    destruct HE as (_ & _ & C). now rewrite !C.
  - apply nth_error_None in E. lia.
Qed.

Lemma fitting_ok v f n c : fitting v f n c -> exists p, mk_phases v f = Ok p /\ num_phases p = n /\ p_nc p = c.
Proof. intros H. destruct (proj1 (C26_constructor v f) n c H) as (p & A & _ & B & C & _). eauto. Qed.
Lemma mk_fitting v f p : mk_phases v f = Ok p -> fitting v f (num_phases p) (p_nc p).
Proof.
  unfold mk_phases, fitting, num_phases. destruct (nd_shape v) as [|n [|? ?]]; try discriminate.
  destruct (nd_shape f) as [|a [|b [|? ?]]]; try discriminate. destruct (Nat.eqb_spec n a) as [<-|]; [|discriminate].
  intros H. injection H as <-. cbn. now rewrite map_length, seq_length.
Qed.

(* ------------------------------------------------------------------ *)
(** * Methods *)

Lemma construct_facts s v f : sane s -> (v < z_next s)%nat -> (f < z_next s)%nat ->
  exists s' r, z_construct s v f = (s', r) /\ sane s' /\ extends s s' /\ z_next s' = z_next s /\
    match mk_phases (z_arr s v) (z_arr s f) with
    | Ok p => r = Ok (length (z_objs s)) /\ nth_error (z_objs s') (length (z_objs s)) = Some (v, f) /\
              look s' (length (z_objs s)) = Ok p
    | Err e => r = Err e /\ s' = s
    end.
Proof.
  intros HS Hv Hf. unfold z_construct. destruct (mk_phases (z_arr s v) (z_arr s f)) as [p|e] eqn:E.
  - eexists _, _. split; [reflexivity|]. split; [|split; [|split; [reflexivity|split; [reflexivity|]]]].
    + intros o v' f' Ho. cbn in *. destruct (lt_dec o (length (z_objs s))) as [L|L].
      * rewrite nth_error_app1 in Ho by auto. now apply HS with (o := o).
      * rewrite nth_error_app2 in Ho by lia. destruct (o - length (z_objs s))%nat as [|k]; cbn in Ho; [|now destruct k].
        injection Ho as <- <-. split; [auto|]. split; [auto|]. eexists _, _. apply mk_fitting. exact E.
    + split; [cbn; lia|]. split; [cbn; eauto|]. auto.
    + unfold look. cbn. rewrite nth_error_app2, Nat.sub_diag by lia. cbn. auto.
  - exists s, (Err e). split; [reflexivity|]. split; [exact HS|]. split; [apply extends_refl|]. auto.
Qed.

Lemma alloc_facts s x : sane s -> exists s' a, z_alloc s x = (s', a) /\ a = z_next s /\ z_next s' = S (z_next s) /\
  z_objs s' = z_objs s /\ sane s' /\ extends s s' /\ z_arr s' a = x.
Proof.
  intros HS. eexists _, _. split; [reflexivity|]. split; [reflexivity|]. split; [reflexivity|]. split; [reflexivity|].
  assert (X : extends s (fst (z_alloc s x))).
  { split; [cbn; lia|]. split; [exists []; cbn; now rewrite app_nil_r|]. intros a Ha. cbn. apply upd_neq. lia. }
  split; [|split; [exact X|cbn; apply upd_eq]].
  intros o v f Ho. cbn in Ho. destruct (HS _ _ _ Ho) as (A & B & n & c & C). cbn [z_next z_arr].
  split; [lia|]. split; [lia|]. exists n, c. unfold fitting in *. rewrite !upd_neq by lia. exact C.
Qed.

Lemma copy_vol_facts s vol f : sane s -> (f < z_next s)%nat ->
  exists s' r, z_copy_vol s vol f = (s', r) /\ sane s' /\ extends s s' /\
    match mk_phases (nd_of_vec vol) (z_arr s f) with
    | Ok p => exists o v, r = Ok o /\ (length (z_objs s) <= o)%nat /\ nth_error (z_objs s') o = Some (v, f) /\ (z_next s <= v)%nat /\ look s' o = Ok p
    | Err e => r = Err e
    end.
Proof.
  intros HS Hf. unfold z_copy_vol. destruct (alloc_facts s (nd_of_vec vol) HS) as (s1 & v & -> & Hv & Hn & HO & S1 & X1 & A1).
  destruct (construct_facts s1 v f S1) as (s' & r & -> & S2 & X2 & Hn2 & HM); [lia|lia|].
  exists s', r. split; [reflexivity|]. split; [exact S2|]. split; [now apply extends_trans with s1|].
  rewrite A1 in HM. destruct X1 as (_ & _ & X1). rewrite X1 in HM by auto. rewrite HO in HM.
  destruct (mk_phases _ _); [|tauto]. destruct HM as (B1 & B2 & B3). eexists _, v. split; [exact B1|]. split; [lia|].
  split; [exact B2|]. split; [lia|exact B3].
Qed.

Lemma copy_both_facts s vol rows nc : sane s ->
  exists s' r, z_copy_both s vol rows nc = (s', r) /\ sane s' /\ extends s s' /\
    match ph_copy vol rows nc with
    | Ok p => exists o v f, r = Ok o /\ (length (z_objs s) <= o)%nat /\ nth_error (z_objs s') o = Some (v, f) /\
              (z_next s <= v)%nat /\ (z_next s <= f)%nat /\ v <> f /\ look s' o = Ok p
    | Err e => r = Err e
    end.
Proof.
  intros HS. unfold z_copy_both, ph_copy.
  destruct (alloc_facts s (nd_of_vec vol) HS) as (s1 & v & -> & Hv & Hn & HO & S1 & X1 & A1).
  destruct (alloc_facts s1 (nd_of_rows rows nc) S1) as (s2 & f & -> & Hf & Hn2 & HO2 & S2 & X2 & A2).
  destruct (construct_facts s2 v f S2) as (s' & r & -> & S3 & X3 & Hn3 & HM); [lia|lia|].
  exists s', r. split; [reflexivity|]. split; [exact S3|].
  split; [apply extends_trans with s1; [exact X1|]; now apply extends_trans with s2|].
  rewrite A2 in HM. pose proof X2 as (_ & _ & X2'). rewrite X2', A1 in HM by lia. rewrite HO2, HO in HM.
  destruct (mk_phases _ _); [|tauto]. destruct HM as (B1 & B2 & B3). eexists _, v, f. split; [exact B1|]. split; [lia|].
  split; [exact B2|]. split; [lia|]. split; [lia|]. split; [lia|exact B3].
Qed.

(** the method call of an operation *)
Definition act_of (x : op) (o : nat) : act :=
  match x with Normalize => NormalizeO o | Sort a => SortO a o | Clusters c => ClustersO c o end.

(** Does the operation make new arrays of fractions, of volumes? *)
Definition new_fractions (x : op) (p : phases) : bool :=
  match x with Normalize => false | Sort _ => true | Clusters _ => negb (Nat.ltb (num_phases p) 2) end.
Definition new_volumes (x : op) (p : phases) : bool :=
  match x with Normalize => true | _ => new_fractions x p end.

Lemma look_inv s o p : look s o = Ok p -> exists v f, nth_error (z_objs s) o = Some (v, f) /\ mk_phases (z_arr s v) (z_arr s f) = Ok p.
Proof. unfold look. destruct (nth_error _ _) as [[v f]|]; [|discriminate]. eauto. Qed.

Lemma look_lt s o p : look s o = Ok p -> (o < length (z_objs s))%nat.
Proof. intros H. apply look_inv in H. destruct H as (v & f & H & _). apply nth_error_Some. congruence. Qed.

(** One method call on an existing object: the value is that of the functions
    of ModelPhases, nothing that existed changes, and the arrays of the result
    are new or shared as stated. *)
Theorem C75_method s o v f p x : sane s -> nth_error (z_objs s) o = Some (v, f) -> look s o = Ok p ->
  exists s' r, do_act s (act_of x o) = (s', r) /\ sane s' /\
    (forall o', (o' < length (z_objs s))%nat -> look s' o' = look s o') /\
    (forall a, (a < z_next s)%nat -> z_arr s' a = z_arr s a) /\
    match do_op x p with
    | Ok q => exists o' v' f', r = Ok o' /\ nth_error (z_objs s') o' = Some (v', f') /\ look s' o' = Ok q /\
        (if new_volumes x p then (z_next s <= v')%nat else v' = v) /\
        (if new_fractions x p then (z_next s <= f')%nat else f' = f) /\
        (if new_volumes x p then (length (z_objs s) <= o')%nat else o' = o)
    | Err e => r = Err e
    end.
Proof.
  intros HS Ho Hp. destruct (HS _ _ _ Ho) as (Hv & Hf & _).
  assert (HF : forall s', extends s s' -> (forall o', (o' < length (z_objs s))%nat -> look s' o' = look s o') /\
                                           (forall a, (a < z_next s)%nat -> z_arr s' a = z_arr s a)).
  { intros s' X. split; [intros; now apply extends_look|]. apply X. }
  pose proof Hp as Hm. unfold look in Hm. rewrite Ho in Hm.
  destruct x as [|a|c]; cbn [act_of do_act do_op new_volumes new_fractions].
  - unfold z_normalize. rewrite Hp, Ho.
    destruct (copy_vol_facts s (map (fun u => u / total_volume p) (p_vol p)) f HS Hf) as (s' & r & -> & S' & X & HM).
    exists s', r. split; [reflexivity|]. split; [exact S'|]. destruct (HF _ X) as (F1 & F2). split; [exact F1|]. split; [exact F2|].
    unfold ph_normalize, ph_copy.
    assert (E : mk_phases (nd_of_vec (map (fun u => u / total_volume p) (p_vol p))) (z_arr s f) =
                mk_phases (nd_of_vec (map (fun u => u / total_volume p) (p_vol p))) (nd_of_rows (p_frac p) (p_nc p))).
    { pose proof (mk_fitting _ _ _ Hm) as (M1 & M2). destruct (proj1 (C26_constructor _ _) _ _ (conj M1 M2)) as (p' & E1 & SH & _ & _ & _ & E2).
      rewrite Hm in E1. injection E1 as <-. destruct SH as (L1 & L2). unfold num_phases in *.
      unfold mk_phases. rewrite M2. cbn [nd_of_vec nd_of_rows nd_shape nd_at]. rewrite map_length, <- L1, Nat.eqb_refl.
      f_equal. f_equal. apply map_ext_in. intros k Hk. apply in_seq in Hk. apply map_ext_in. intros i Hi. apply in_seq in Hi.
      symmetry. apply E2; lia. }
    rewrite E in HM. destruct (mk_phases (nd_of_vec _) (nd_of_rows _ _)); [|exact HM]. destruct HM as (o' & v' & B1 & B2 & B3 & B4 & B5).
    exists o', v', f. auto 10.
  - unfold z_sort. rewrite Hp. unfold ph_sort. destruct (Nat.eqb _ 0).
    { exists s, (Err TypeError). split; [reflexivity|]. split; [exact HS|]. split; auto. }
    destruct (copy_both_facts s (map (fun i => nth i (p_vol p) 0) (lexsort (map a (p_frac p))))
      (map (fun i => nth i (p_frac p) []) (lexsort (map a (p_frac p)))) (p_nc p) HS) as (s' & r & E & S' & X & HM).
    exists s', r. cbv zeta. split; [exact E|]. split; [exact S'|]. destruct (HF _ X) as (F1 & F2). split; [exact F1|]. split; [exact F2|].
    destruct (ph_copy _ _ _); [|exact HM]. destruct HM as (o' & v' & f' & B1 & B2 & B3 & B4 & B5 & B6 & B7). exists o', v', f'. auto 10.
  - unfold z_clusters. rewrite Hp. unfold get_clusters. destruct (Nat.ltb (num_phases p) 2) eqn:EL; cbn [negb].
    { exists s, (Ok o). split; [reflexivity|]. split; [exact HS|]. split; [auto|]. split; [auto|]. exists o, v, f. auto 10. }
    cbv zeta. destruct (collect p (c (p_frac p)) (np_unique (c (p_frac p)))) as [[vs fs]|e]; cbn [bind].
    + destruct (copy_both_facts s vs fs (p_nc p) HS) as (s' & r & E & S' & X & HM).
      exists s', r. split; [exact E|]. split; [exact S'|]. destruct (HF _ X) as (F1 & F2). split; [exact F1|]. split; [exact F2|].
      destruct (ph_copy _ _ _); [|exact HM]. destruct HM as (o' & v' & f' & B1 & B2 & B3 & B4 & B5 & B6 & B7). exists o', v', f'. auto 10.
    + exists s, (Err e). split; [reflexivity|]. split; [exact HS|]. split; auto.
Qed.

(** The constructor and [from_phases] share both arrays. *)
Theorem C75_from s o v f p : sane s -> nth_error (z_objs s) o = Some (v, f) -> look s o = Ok p ->
  exists s', do_act s (FromO o) = (s', Ok (length (z_objs s))) /\ sane s' /\
    look s' (length (z_objs s)) = Ok p /\ nth_error (z_objs s') (length (z_objs s)) = Some (v, f) /\
    (forall o', (o' < length (z_objs s))%nat -> look s' o' = look s o').
Proof.
  intros HS Ho Hp. destruct (HS _ _ _ Ho) as (Hv & Hf & _). cbn [do_act]. unfold z_from. rewrite Ho.
  destruct (construct_facts s v f HS Hv Hf) as (s' & r & -> & S' & X & _ & HM).
  unfold look in Hp. rewrite Ho in Hp. rewrite Hp in HM. destruct HM as (-> & B2 & B3).
  exists s'. split; [reflexivity|]. split; [exact S'|]. split; [exact B3|]. split; [exact B2|]. intros. now apply extends_look.
Qed.

Lemma write_facts s a idx x : sane s -> exists s' r, z_write s a idx x = (s', r) /\ sane s' /\ grows s s' /\
  (forall b, b <> a -> z_arr s' b = z_arr s b) /\ z_objs s' = z_objs s /\ z_next s' = z_next s.
Proof.
  intros HS. unfold z_write. destruct (andb _ _).
  - eexists _, _. split; [reflexivity|].
    assert (SH : forall b, nd_shape (upd (z_arr s) a {| nd_shape := nd_shape (z_arr s a);
        nd_at := fun j => if list_eqb j idx then x else nd_at (z_arr s a) j |} b) = nd_shape (z_arr s b)).
    { intros b. unfold upd. destruct (Nat.eqb_spec b a) as [->|]; reflexivity. }
    split; [|split; [|split; [|split; reflexivity]]].
    + intros o v f Ho. destruct (HS _ _ _ Ho) as (A & B & n & c & C). split; [exact A|]. split; [exact B|].
      exists n, c. unfold fitting in *. cbn [z_arr]. rewrite !SH. exact C.
    + split; [cbn; lia|]. split; [exists []; cbn; now rewrite app_nil_r|]. intros b _. cbn [z_arr]. apply SH.
    + intros b Hb. cbn. now apply upd_neq.
  - exists s, (Err IndexError). split; [reflexivity|]. split; [exact HS|]. split; [apply extends_grows, extends_refl|]. auto.
Qed.

Lemma act_facts s c : sane s -> exists s' r, do_act s c = (s', r) /\ sane s' /\ grows s s' /\
  (forall a, (a < z_next s)%nat -> (forall idx x, c <> WriteA a idx x) -> z_arr s' a = z_arr s a).
Proof.
  intros HS.
  assert (HE : forall s' (r : res nat), sane s' -> extends s s' -> sane s' /\ grows s s' /\
    (forall a, (a < z_next s)%nat -> (forall idx x, c <> WriteA a idx x) -> z_arr s' a = z_arr s a)).
  { intros s' r S' X. split; [exact S'|]. split; [now apply extends_grows|]. intros a Ha _. now apply X. }
  assert (HM : forall x o, c = act_of x o -> exists s' r, do_act s c = (s', r) /\ sane s' /\ grows s s' /\
    (forall a, (a < z_next s)%nat -> (forall idx x, c <> WriteA a idx x) -> z_arr s' a = z_arr s a)).
  { intros x o ->. destruct (nth_error (z_objs s) o) as [[v f]|] eqn:Ho.
    - destruct (HS _ _ _ Ho) as (_ & Hf & n & cc & Hfit). destruct (fitting_ok _ _ _ _ Hfit) as (p & Hp & _).
      assert (HL : look s o = Ok p) by (unfold look; now rewrite Ho).
      destruct x as [|aa|cc0]; cbn [act_of do_act].
      + unfold z_normalize. rewrite HL, Ho. destruct (copy_vol_facts s (map (fun u => u / total_volume p) (p_vol p)) f HS Hf) as (s' & r & E & S' & X & _). exists s', r. split; [exact E|]. apply (HE s' r); assumption.
      + unfold z_sort. rewrite HL. destruct (Nat.eqb _ 0); [exists s, (Err TypeError); split; [reflexivity|]; apply (HE s (Err TypeError)); [exact HS|apply extends_refl]|].
        cbv zeta. match goal with |- context [z_copy_both s ?a ?b ?c] => destruct (copy_both_facts s a b c HS) as (s' & r & E & S' & X & _) end. exists s', r. split; [exact E|]. apply (HE s' r); assumption.
      + unfold z_clusters. rewrite HL. destruct (Nat.ltb _ 2); [exists s, (Ok o); split; [reflexivity|]; apply (HE s (Ok o)); [exact HS|apply extends_refl]|].
        cbv zeta. destruct (collect _ _ _) as [[vs fs]|e].
        * destruct (copy_both_facts s vs fs (p_nc p) HS) as (s' & r & E & S' & X & _). exists s', r. split; [exact E|]. apply (HE s' r); assumption.
        * exists s, (Err e). split; [reflexivity|]. apply (HE s (Err e)); [exact HS|apply extends_refl].
    - assert (HL : look s o = Err AttributeError) by (unfold look; now rewrite Ho).
      exists s, (Err AttributeError). split; [|apply (HE s (Err AttributeError)); [exact HS|apply extends_refl]].
      destruct x; cbn [act_of do_act]; unfold z_normalize, z_sort, z_clusters; now rewrite HL. }
  destruct c as [x|v f|o|a o|c o|o|a idx x].
  - destruct (alloc_facts s x HS) as (s' & a & E & _ & _ & _ & S' & X & _). cbn [do_act]. rewrite E. exists s', (Ok a). split; [reflexivity|]. apply (HE s' (Ok a)); assumption.
  - cbn [do_act]. destruct (Nat.ltb_spec v (z_next s)); cbn [andb].
    + destruct (Nat.ltb_spec f (z_next s)); cbn [andb].
      * destruct (construct_facts s v f HS) as (s' & r & E & S' & X & _); auto. exists s', r. split; [exact E|]. apply (HE s' r); assumption.
      * exists s, (Err AttributeError). split; [reflexivity|]. apply (HE s (Err AttributeError)); [exact HS|apply extends_refl].
    + exists s, (Err AttributeError). split; [reflexivity|]. apply (HE s (Err AttributeError)); [exact HS|apply extends_refl].
  - exact (HM Normalize o eq_refl).
  - exact (HM (Sort a) o eq_refl).
  - exact (HM (Clusters c) o eq_refl).
  - cbn [do_act]. unfold z_from. destruct (nth_error (z_objs s) o) as [[v f]|] eqn:Ho.
    + destruct (HS _ _ _ Ho) as (Hv & Hf & _). destruct (construct_facts s v f HS Hv Hf) as (s' & r & E & S' & X & _). exists s', r. split; [exact E|]. apply (HE s' r); assumption.
    + exists s, (Err AttributeError). split; [reflexivity|]. apply (HE s (Err AttributeError)); [exact HS|apply extends_refl].
  - cbn [do_act]. destruct (write_facts s a idx x HS) as (s' & r & E & S' & Gr & HB & _). exists s', r. split; [exact E|].
    split; [exact S'|]. split; [exact Gr|]. intros b Hb Hn. apply HB. intros ->. now apply (Hn idx x).
Qed.

(* ------------------------------------------------------------------ *)
(** * C75 *)

Lemma acts_facts cs : forall s, sane s -> sane (do_acts s cs) /\ grows s (do_acts s cs) /\
  (forall a, (a < z_next s)%nat -> (forall idx x, ~ In (WriteA a idx x) cs) -> z_arr (do_acts s cs) a = z_arr s a).
Proof.
  induction cs as [|c cs IH]; intros s HS; cbn [do_acts fold_left].
  - split; [exact HS|]. split; [apply extends_grows, extends_refl|auto].
  - destruct (act_facts s c HS) as (s' & r & E & S' & Gr & HA). rewrite E. cbn [fst].
    destruct (IH s' S') as (I1 & I2 & I3). unfold do_acts in *. split; [exact I1|]. split; [now apply grows_trans with s'|].
    intros a Ha Hn. rewrite I3.
    + apply HA; [exact Ha|]. intros idx x ->. apply (Hn idx x). now left.
    + destruct Gr as (Gr & _). lia.
    + intros idx x Hi. apply (Hn idx x). now right.
Qed.

Lemma sane_empty : sane empty_store.
Proof. intros o v f H. cbn in H. now destruct o. Qed.

(** No sequence of calls and element assignments makes an object inconsistent. *)
Theorem C75_consistent cs o : (o < length (z_objs (do_acts empty_store cs)))%nat ->
  exists p, look (do_acts empty_store cs) o = Ok p /\ shaped p.
Proof.
  intros Ho. destruct (acts_facts cs empty_store sane_empty) as (HS & _ & _). set (s := do_acts empty_store cs) in *.
  unfold look. destruct (nth_error (z_objs s) o) as [[v f]|] eqn:E; [|apply nth_error_None in E; lia].
  destruct (HS _ _ _ E) as (_ & _ & n & c & F). destruct (proj1 (C26_constructor _ _) n c F) as (p & P1 & P2 & _). eauto.
Qed.

(** An entry of an array can be written exactly where the array has one; any
    other index raises IndexError and changes nothing. *)
Lemma in_range_iff shape idx : in_range shape idx = true <-> Forall2 lt idx shape.
Proof.
  revert idx. induction shape as [|n shape IH]; intros [|i idx]; cbn [in_range].
  - split; [constructor|reflexivity].
  - split; [discriminate|intros H; inversion H].
  - split; [discriminate|intros H; inversion H].
  - rewrite andb_true_iff, IH, Nat.ltb_lt. split; [intros []; now constructor|intros H; inversion H; auto].
Qed.

Theorem C75_write s a idx x : (a < z_next s)%nat ->
  (Forall2 lt idx (nd_shape (z_arr s a)) -> exists s', do_act s (WriteA a idx x) = (s', Ok a) /\
     nd_at (z_arr s' a) idx = x /\ nd_shape (z_arr s' a) = nd_shape (z_arr s a) /\
     (forall j, j <> idx -> nd_at (z_arr s' a) j = nd_at (z_arr s a) j) /\
     (forall b, b <> a -> z_arr s' b = z_arr s b) /\ z_objs s' = z_objs s) /\
  (~ Forall2 lt idx (nd_shape (z_arr s a)) -> do_act s (WriteA a idx x) = (s, Err IndexError)).
Proof.
  intros Ha. cbn [do_act]. unfold z_write. rewrite (proj2 (Nat.ltb_lt _ _) Ha). cbn [andb]. split.
  - intros H. rewrite (proj2 (in_range_iff _ _) H). eexists. split; [reflexivity|]. cbn. unfold upd. rewrite Nat.eqb_refl. cbn.
    unfold list_eqb. destruct (list_eq_dec Nat.eq_dec idx idx); [|congruence]. split; [reflexivity|]. split; [reflexivity|]. split.
    + intros j Hj. destruct (list_eq_dec Nat.eq_dec j idx); [congruence|reflexivity].
    + split; [|reflexivity]. intros b Hb. destruct (Nat.eqb_spec b a); [congruence|reflexivity].
  - intros H. destruct (in_range _ _) eqn:E; [apply in_range_iff in E; contradiction|reflexivity].
Qed.

(** An object changes only by assignments into its own two arrays. *)
Theorem C75_frame s cs o v f : sane s -> nth_error (z_objs s) o = Some (v, f) ->
  (forall idx x, ~ In (WriteA v idx x) cs /\ ~ In (WriteA f idx x) cs) -> look (do_acts s cs) o = look s o.
Proof.
  intros HS Ho Hn. destruct (acts_facts cs s HS) as (_ & Gr & HA). destruct (HS _ _ _ Ho) as (Hv & Hf & _).
  unfold look. rewrite Ho, (grows_obj _ _ _ _ Gr Ho). rewrite !HA by (auto; intros; apply Hn). reflexivity.
Qed.

(** Results of sort, and of get_clusters on two or more phases, are
    independent of everything that existed: assignments into older arrays do
    not change them, assignments into their arrays change no older object. *)
Theorem C75_independent s o v f p x s' o' cs : sane s -> nth_error (z_objs s) o = Some (v, f) -> look s o = Ok p ->
  new_fractions x p = true -> do_act s (act_of x o) = (s', Ok o') ->
  ((forall a idx y, In (WriteA a idx y) cs -> (a < z_next s)%nat) -> look (do_acts s' cs) o' = look s' o') /\
  ((forall a idx y, In (WriteA a idx y) cs -> (z_next s <= a)%nat) ->
     forall b, (b < length (z_objs s))%nat -> look (do_acts s' cs) b = look s b).
Proof.
  intros HS Ho Hp Hx HE. destruct (C75_method s o v f p x HS Ho Hp) as (s1 & r & E & S1 & F1 & F2 & HM).
  rewrite HE in E. injection E as <- <-. destruct (do_op x p) as [q|e]; [|discriminate].
  destruct HM as (o2 & v' & f' & R & N & _ & A & B & _). injection R as <-. rewrite Hx in B.
  assert (NV : new_volumes x p = true) by (destruct x; auto). rewrite NV in A. split.
  - intros Hc. apply C75_frame with (v := v') (f := f'); auto. intros idx y. split; intros Hi; apply Hc in Hi; lia.
  - intros Hc b Hb. destruct (nth_error (z_objs s) b) as [[vb fb]|] eqn:Eb; [|apply nth_error_None in Eb; lia].
    destruct (HS _ _ _ Eb) as (Lv & Lf & _).
    assert (G1 : grows s s') by (destruct (act_facts s (act_of x o) HS) as (t & u & T1 & _ & T3 & _); rewrite HE in T1; injection T1 as <- <-; exact T3).
    rewrite (C75_frame s' cs b vb fb S1 (grows_obj _ _ _ _ G1 Eb)).
    + now apply F1.
    + intros idx y. split; intros Hi; apply Hc in Hi; lia.
Qed.

(** normalize: the volumes are new, the fractions are those of the source --
    an assignment into the fractions of the normalised phases changes the
    original, too. *)
Theorem C75_normalize_refuted s o v f p k i x : sane s -> nth_error (z_objs s) o = Some (v, f) -> look s o = Ok p ->
  (k < num_phases p)%nat -> (i < p_nc p)%nat -> v <> f ->
  exists s' o' v' q, do_act s (NormalizeO o) = (s', Ok o') /\ nth_error (z_objs s') o' = Some (v', f) /\
    (z_next s <= v')%nat /\
    look (do_acts s' [WriteA f [k; i] x]) o = Ok q /\ p_vol q = p_vol p /\ nth i (nth k (p_frac q) []) 0 = x.
Proof.
  intros HS Ho Hp Hk Hi Hvf. destruct (C75_method s o v f p Normalize HS Ho Hp) as (s' & r & E & S' & F1 & F2 & HM).
  pose proof Hp as Hm. unfold look in Hm. rewrite Ho in Hm. pose proof (mk_fitting _ _ _ Hm) as (M1 & M2).
  cbn [do_op new_volumes new_fractions act_of] in *. unfold ph_normalize in HM.
  destruct (proj1 (C26_constructor _ _) _ _ (conj M1 M2)) as (p' & E1 & SH & _ & _ & EV & EF).
  rewrite Hm in E1. injection E1 as <-. destruct SH as (L1 & L2).
  rewrite ph_copy_eq in HM by (rewrite ?map_length; auto). destruct HM as (o' & v' & f' & -> & N & _ & A & -> & _).
  destruct (HS _ _ _ Ho) as (Hv & Hf & _).
  exists s', o', v'. 
  destruct (write_facts s' f [k; i] x S') as (s2 & r2 & E2 & S2 & Gr & HB & HO & _).
  assert (G1 : grows s s') by (destruct (act_facts s (NormalizeO o) HS) as (t & u & T1 & _ & T3 & _); rewrite E in T1; injection T1 as <- <-; exact T3).
  pose proof (grows_obj _ _ _ _ G1 Ho) as Ho'.
  assert (AF : z_arr s2 f = {| nd_shape := nd_shape (z_arr s f); nd_at := fun j => if list_eqb j [k; i] then x else nd_at (z_arr s f) j |}).
  { unfold z_write in E2. rewrite (F2 f Hf), M2 in E2. cbn [in_range] in E2.
    rewrite (proj2 (Nat.ltb_lt k _) Hk), (proj2 (Nat.ltb_lt i _) Hi) in E2. destruct G1 as (G1 & _).
    rewrite (proj2 (Nat.ltb_lt f (z_next s'))) in E2 by lia. injection E2 as <- _. cbn [z_arr]. rewrite upd_eq. now rewrite M2. }
  assert (AV : z_arr s2 v = z_arr s v) by (rewrite HB by auto; auto).
  assert (FT : fitting (z_arr s2 v) (z_arr s2 f) (num_phases p) (p_nc p)) by (rewrite AV, AF; split; assumption).
  destruct (proj1 (C26_constructor _ _) _ _ FT) as (q & Q1 & (QL1 & QL2) & Q2 & Q3 & Q4 & Q5).
  exists q. split; [exact E|]. split; [exact N|]. split; [exact A|]. split; [|split].
  - cbn [do_acts fold_left do_act]. rewrite E2. cbn [fst]. unfold look. rewrite HO, Ho'. exact Q1.
  - apply (nth_ext _ _ 0 0); [unfold num_phases in Q2; exact Q2|]. intros j Hj. unfold num_phases in *. rewrite Q2 in Hj.
    rewrite Q4, EV, AV by auto. reflexivity.
  - rewrite Q5 by auto. rewrite AF. cbn [nd_at]. unfold list_eqb. destruct (list_eq_dec _ _ _); [reflexivity|congruence].
Qed.

(* ------------------------------------------------------------------ *)
(** ** Chains of methods *)

(** phases before each operation of a chain *)
Fixpoint any_new (w : op -> phases -> bool) (os : list op) (p : phases) : bool :=
  match os with
  | [] => false
  | x :: os' => w x p || match do_op x p with Ok q => any_new w os' q | Err _ => false end
  end.
Fixpoint chain (s : store) (o : nat) (os : list op) : store * res nat :=
  match os with
  | [] => (s, Ok o)
  | x :: os' => match do_act s (act_of x o) with (s', Ok o') => chain s' o' os' | (s', Err e) => (s', Err e) end
  end.

(** obj.op1().op2()...: the value is that of the chain, everything older is
    unchanged, and the result shares the fractions (volumes) of the source
    exactly if no operation of the chain makes new ones. *)
Theorem C75_chain os : forall s o v f p, sane s -> nth_error (z_objs s) o = Some (v, f) -> look s o = Ok p ->
  exists s' r, chain s o os = (s', r) /\ sane s' /\ (z_next s <= z_next s')%nat /\ (length (z_objs s) <= length (z_objs s'))%nat /\
    (forall o', (o' < length (z_objs s))%nat -> look s' o' = look s o') /\
    match do_ops os p with
    | Ok q => exists o' v' f', r = Ok o' /\ nth_error (z_objs s') o' = Some (v', f') /\ look s' o' = Ok q /\
        (if any_new new_volumes os p then (z_next s <= v')%nat else v' = v) /\
        (if any_new new_fractions os p then (z_next s <= f')%nat else f' = f)
    | Err e => r = Err e
    end.
Proof.
  induction os as [|x os IH]; intros s o v f p HS Ho Hp; cbn [chain do_ops any_new].
  - exists s, (Ok o). split; [reflexivity|]. split; [exact HS|]. split; [lia|]. split; [lia|]. split; [auto|]. exists o, v, f. auto 10.
  - destruct (C75_method s o v f p x HS Ho Hp) as (s1 & r & E & S1 & F1 & F2 & HM). rewrite E.
    destruct (act_facts s (act_of x o) HS) as (t & u & T1 & _ & (T3 & (l & T4) & _) & _). rewrite E in T1. injection T1 as <- <-.
    assert (TL : (length (z_objs s) <= length (z_objs s1))%nat) by (rewrite T4, app_length; lia).
    destruct (do_op x p) as [q|e]; cbn [bind].
    + destruct HM as (o1 & v1 & f1 & -> & N1 & K1 & A1 & B1 & _).
      destruct (IH s1 o1 v1 f1 q S1 N1 K1) as (s' & r' & E' & S' & Z1 & Z2 & Z3 & HM').
      exists s', r'. split; [exact E'|]. split; [exact S'|]. split; [lia|]. split; [lia|].
      split; [intros o' Ho'; rewrite Z3 by lia; auto|].
      destruct (do_ops os q) as [q'|e']; [|exact HM']. destruct HM' as (o' & v' & f' & R1 & R2 & R3 & R4 & R5).
      exists o', v', f'. split; [exact R1|]. split; [exact R2|]. split; [exact R3|].
      destruct (new_volumes x p), (new_fractions x p), (any_new new_volumes os q), (any_new new_fractions os q); cbn [orb]; split; lia.
    + subst r. exists s1, (Err e). split; [reflexivity|]. split; [exact S1|]. split; [lia|]. split; [lia|]. split; [exact F1|reflexivity].
Qed.

(** Two phases, normalised and then sorted: four arrays. *)
Definition demo : list act :=
  [NewArr (nd_of_vec [1; 3]); NewArr (nd_of_rows [[1/4; 3/4]; [3/4; 1/4]] 2); Construct 0 1; NormalizeO 0; FromO 0; WriteA 1 [0%nat; 0%nat] (1/2)].

Example case_C75 :
  look (do_acts empty_store demo) 0 = Ok {| p_vol := [1; 3]; p_frac := [[1/2; 3/4]; [3/4; 1/4]]; p_nc := 2 |} /\
  look (do_acts empty_store demo) 1 = Ok {| p_vol := [1/4; 3/4]; p_frac := [[1/2; 3/4]; [3/4; 1/4]]; p_nc := 2 |} /\
  look (do_acts empty_store demo) 2 = look (do_acts empty_store demo) 0.
Proof.
  assert (T : total_volume {| p_vol := [1; 3]; p_frac := [[1/4; 3/4]; [3/4; 1/4]]; p_nc := 2 |} = 4) by (unfold total_volume; cbn; lra).
  cbn. split; [reflexivity|]. split; [|reflexivity]. do 2 f_equal. unfold total_volume. cbn. f_equal; [|f_equal]; lra.
Qed.

(** the hypotheses of the other theorems on the store of this case *)
Example case_C75_store : exists s p, s = do_acts empty_store (firstn 3 demo) /\ sane s /\ nth_error (z_objs s) 0 = Some (0%nat, 1%nat) /\
  look s 0 = Ok p /\ num_phases p = 2%nat /\ p_nc p = 2%nat /\
  forall a, new_fractions (Sort a) p = true /\ any_new new_fractions [Normalize; Normalize] p = false.
Proof.
  eexists _, _. split; [reflexivity|]. split; [exact (proj1 (acts_facts (firstn 3 demo) empty_store sane_empty))|].
  split; [reflexivity|]. split; [reflexivity|]. split; [reflexivity|]. split; [reflexivity|]. intros a. split; [reflexivity|].
  cbn [any_new new_fractions orb]. destruct (do_op _ _); [|reflexivity]. cbn [any_new orb]. now destruct (do_op _ _).
Qed.

(** writing entry (1, 1) of the fractions works, entry (2, 0) does not exist *)
Example case_C75_write (s := do_acts empty_store (firstn 3 demo)) :
  snd (do_act s (WriteA 1 [1; 1]%nat 3)) = Ok 1%nat /\ do_act s (WriteA 1 [2; 0]%nat 3) = (s, Err IndexError).
Proof.
  destruct (C75_write s 1 [1; 1]%nat 3) as [H _]; [cbn; lia|]. destruct (C75_write s 1 [2; 0]%nat 3) as [_ K]; [cbn; lia|].
  split.
  - destruct H as (s' & -> & _); [cbn; repeat constructor|reflexivity].
  - apply K. cbn. intros X. inversion X. lia.
Qed.
