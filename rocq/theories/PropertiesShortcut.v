(** PropertiesShortcut.v -- the wrapper find_coexisting_phases (C56). *)

From Coq Require Import String Reals Lra Lia List Bool Arith ZArith Permutation.
From Verif Require Import Base ModelCommon ModelParts ModelKernel ModelPhases ModelFinder ProofsKernel ProofsParts
  ProofsSteps ProofsCopy ProofsRun Spec ModelHistory ProofsHistory ProofsRun2 PropertiesFinder PropertiesRun PropertiesSetup
  ProofsPhases PropertiesPhases ModelObjects PropertiesObjects ModelShortcut.
Import ListNotations.
Open Scope R_scope.

(** A linear combination of the entries of a composition. *)
Definition combination (nc : nat) (c : vec) (row : list R) : R := rsum nc (fun i => c i * nth i row 0).

(** C29: clusters stay between their members in every linear combination. *)
Theorem C29_between fcluster p q c lo hi : fcluster_spec fcluster -> shaped p ->
  (forall v, In v (p_vol p) -> 0 < v) -> get_clusters fcluster p = Ok q ->
  (forall row, In row (p_frac p) -> lo <= combination (p_nc p) c row <= hi) ->
  forall row, In row (p_frac q) -> lo <= combination (p_nc p) c row <= hi.
Proof.
  intros HC HS HV Hq HB row Hr.
  destruct (Nat.lt_ge_cases (num_phases p) 2) as [L|L].
  { rewrite (C29_single fcluster p L) in Hq. injection Hq as <-. auto. }
  destruct (C29_conserved fcluster p q HC HS L Hq) as (Sq & Nq & _ & _ & ns & ND & HIn & Hlen & HK).
  set (labels := fcluster (p_frac p)) in *. assert (Hlab : length labels = length (p_frac p)) by apply HC.
  destruct HS as [HL HF]. apply (In_nth _ _ []) in Hr. destruct Hr as (k & Hk & <-).
  assert (Hk' : (k < length ns)%nat) by (rewrite <- Hlen; unfold num_phases; destruct Sq as [-> _]; exact Hk).
  destruct (HK k Hk') as [_ HE].
  set (W := over_label labels (nth k ns O) (fun m => nth m (p_vol p) 0)) in *.
  assert (HW : 0 < W).
  { unfold W. rewrite <- (lsum_select _ _ (p_vol p) 0 (fun v => v)) by congruence. apply lsum_pos.
    - apply select_nonempty; [congruence|]. apply HIn. now apply nth_In.
    - intros v Hv. apply select_In in Hv. auto. }
  assert (E : combination (p_nc p) c (nth k (p_frac q) []) * W =
    over_label labels (nth k ns O) (fun m => nth m (p_vol p) 0 * combination (p_nc p) c (nth m (p_frac p) []))).
  { unfold combination. rewrite <- rsum_scal_r.
    rewrite (rsum_ext _ _ (fun i => over_label labels (nth k ns O) (fun m => c i * (nth m (p_vol p) 0 * nth i (nth m (p_frac p) []) 0)))).
    - unfold over_label. rewrite rsum_swap. apply rsum_ext. intros m Hm.
      destruct (Nat.eqb _ _); [|now apply rsum_zero]. rewrite <- rsum_scal_l. apply rsum_ext. intros; ring.
    - intros i Hi. rewrite Rmult_assoc, HE by auto. unfold over_label. rewrite <- rsum_scal_l. apply rsum_ext.
      intros m _. destruct (Nat.eqb _ _); ring. }
  assert (B1 : lo * W <= combination (p_nc p) c (nth k (p_frac q) []) * W).
  { rewrite E. unfold W, over_label. rewrite <- rsum_scal_l. apply rsum_le. intros m Hm.
    destruct (Nat.eqb _ _); [|lra].
    assert (H1 := HB (nth m (p_frac p) []) ltac:(apply nth_In; lia)). assert (H2 := HV (nth m (p_vol p) 0) ltac:(apply nth_In; lia)). nra. }
  assert (B2 : combination (p_nc p) c (nth k (p_frac q) []) * W <= hi * W).
  { rewrite E. unfold W, over_label. rewrite <- rsum_scal_l. apply rsum_le. intros m Hm.
    destruct (Nat.eqb _ _); [|lra].
    assert (H1 := HB (nth m (p_frac p) []) ltac:(apply nth_In; lia)). assert (H2 := HV (nth m (p_vol p) 0) ltac:(apply nth_In; lia)). nra. }
  split; nra.
Qed.

Section Props.
Context {G St : Type} (ops : rng_ops G) (no : nat -> cons_obj St).
Context (fcluster : list (list R) -> list nat) (argsort : list R -> list nat).

(** The post-processing of any collection with positive volumes: it succeeds,
    and what it returns. *)
Lemma post_process p : fcluster_spec fcluster -> argsort_spec argsort -> shaped p -> (0 < p_nc p)%nat ->
  (0 < num_phases p)%nat -> (forall v, In v (p_vol p) -> 0 < v) ->
  exists q, (let* c := get_clusters fcluster p in let* s := ph_sort argsort c in ph_normalize s) = Ok q /\
    shaped q /\ p_nc q = p_nc p /\ (1 <= num_phases q <= num_phases p)%nat /\
    total_volume q = 1 /\ (forall v, In v (p_vol q) -> 0 < v <= 1) /\ sorted_by_top q /\
    (forall i, (i < p_nc p)%nat -> mean_fraction q i = mean_fraction p i) /\
    (forall c lo hi, (forall row, In row (p_frac p) -> lo <= combination (p_nc p) c row <= hi) ->
       forall row, In row (p_frac q) -> lo <= combination (p_nc p) c row <= hi).
Proof.
  intros HC HA HS HN HP HV.
  assert (HT : forall l : list R, l <> [] -> (forall v, In v l -> 0 < v) -> 0 < lsum l (fun v => v)).
  { intros l H1 H2. apply lsum_pos; auto. }
  assert (X : exists c, get_clusters fcluster p = Ok c /\ shaped c /\ p_nc c = p_nc p /\ (1 <= num_phases c <= num_phases p)%nat /\
    total_volume c = total_volume p /\ (forall v, In v (p_vol c) -> 0 < v) /\
    (forall i, (i < p_nc p)%nat -> mean_fraction c i = mean_fraction p i)).
  { destruct (Nat.lt_ge_cases (num_phases p) 2) as [L|L].
    - exists p. rewrite (C29_single fcluster p L). repeat split; auto; apply HS.
    - destruct (C29_positive fcluster p HC HS L) as (c & ns & Hc & ND & HIn & Hlen & HVc & _).
      + intros k Hk. apply HV. now apply nth_In.
      + destruct (C29_conserved fcluster p c HC HS L Hc) as (Sc & Nc & Tc & Mc & _).
        exists c. split; [exact Hc|]. split; [exact Sc|]. split; [exact Nc|].
        assert (Hl : (length ns <= num_phases p)%nat).
        { transitivity (length (fcluster (p_frac p))).
          - apply NoDup_incl_length; auto. intros n Hn. now apply HIn.
          - rewrite HC. destruct HS as [E _]. unfold num_phases. lia. }
        assert (Hl1 : (1 <= length ns)%nat).
        { destruct ns as [|n0 ns]; [|cbn; lia]. exfalso. destruct (fcluster (p_frac p)) as [|n l] eqn:E.
          - assert (Z : length (fcluster (p_frac p)) = O) by now rewrite E. rewrite HC in Z. destruct HS as [E' _]. unfold num_phases in L. lia.
          - apply (HIn n). now left. }
        split; [lia|]. split; [exact Tc|]. split; [|exact Mc].
        intros v Hv. apply (In_nth _ _ 0) in Hv. destruct Hv as (k & Hk & <-). apply HVc. exact Hk. }
  destruct X as (c & Ec & Sc & Nc & Lc & Tc & Vc & Mc). rewrite Ec. cbn [bind].
  destruct (C28_sort argsort c HA Sc ltac:(lia)) as (s & idx & Es & Ss & Ns & PI & Vs & Fs & PC & _ & Top & _ & Ts & Ms & _).
  rewrite Es. cbn [bind].
  assert (Ls : num_phases s = num_phases c).
  { unfold num_phases. rewrite Vs, map_length. apply Permutation_length in PI. now rewrite seq_length in PI. }
  assert (Hvs : forall v, In v (p_vol s) -> In v (p_vol c)).
  { intros v Hv. rewrite Vs in Hv. apply in_map_iff in Hv. destruct Hv as (k & <- & Hk). apply nth_In.
    eapply Permutation_in in Hk; [|exact PI]. apply in_seq in Hk. unfold num_phases in Hk. lia. }
  assert (Hfs : forall row, In row (p_frac s) -> In row (p_frac c)).
  { intros row Hr. rewrite Fs in Hr. apply in_map_iff in Hr. destruct Hr as (k & <- & Hk). apply nth_In.
    eapply Permutation_in in Hk; [|exact PI]. apply in_seq in Hk. unfold num_phases in Hk. destruct Sc as [<- _]. lia. }
  assert (Tp : 0 < total_volume s).
  { unfold total_volume. apply HT; [|auto]. intros E. unfold num_phases in *. rewrite E in Ls. cbn in Ls. lia. }
  destruct (C27_normalize s Ss ltac:(lra)) as (q & Eq & Sq & Tq & Fq & Nq & Lq & Mq & _ & Vq & _).
  exists q. split; [exact Eq|]. split; [exact Sq|]. split; [congruence|]. split; [lia|]. split; [exact Tq|].
  split; [|split; [|split]].
  - assert (Pq : forall v, In v (p_vol q) -> 0 < v).
    { intros v Hv. apply (In_nth _ _ 0) in Hv. destruct Hv as (k & Hk & <-). rewrite Vq. apply Rdiv_lt_0_compat; auto.
      apply Vc, Hvs, nth_In. unfold num_phases in *. lia. }
    intros v Hv. split; auto. rewrite <- Tq. unfold total_volume.
    assert (K : forall l : list R, (forall v, In v l -> 0 < v) -> In v l -> v <= lsum l (fun v => v)).
    { induction l as [|x l IH]; [easy|]. intros H1 [->|H2]; cbn [lsum].
      - assert (0 <= lsum l (fun v => v)); [|lra].
        destruct l; [cbn; lra|]. left. apply HT; [discriminate|]. intros. apply H1. now right.
      - assert (0 < x) by (apply H1; now left). assert (v <= lsum l (fun v => v)) by (apply IH; auto; intros; apply H1; now right). lra. }
    now apply K.
  - unfold sorted_by_top. rewrite Fq, Lq. exact Top.
  - intros i Hi. rewrite Mq, Ms. auto.
  - intros cc lo hi HB row Hr. rewrite Fq in Hr. apply (C29_between fcluster p c); auto.
Qed.

(** C56: the finder is built from the arguments: the potential belongs to the
    symmetrised chi matrix, sizes default to one, mean fractions to 1/nc. *)
Theorem C56_finder nc chis means sizes cons np par kw g f :
  shortcut_finder ops no nc chis means sizes cons np par kw g = Ok f ->
  nd_shape chis = [nc; nc] ->
  (forall s, means = Some s -> nd_shape s = [nc]) ->
  (forall s, sizes = Some s -> nd_shape s = [nc]) ->
  (1 <= nc)%nat /\ f_nc f = nc /\ f_nf f = nc /\ f_par f = par /\
  f_np f = match np with Some (S k) => S k | _ => (nc * 8)%nat end /\
  (forall phi r m, (r < nc)%nat ->
     i_potential (f_inter f) phi r m = rsum nc (fun s => 1 / 2 * (nd_at chis [r; s] + nd_at chis [s; r]) * phi s m)) /\
  (exists l, f_entropy f = ig_compiled nc l /\
     forall i, (i < nc)%nat -> l i = match sizes with None => 1 | Some a => nd_at a [i] end) /\
  (exists x, f_ensemble f = can_compiled nc x /\
     forall i, (i < nc)%nat -> x i = match means with None => 1 / INR nc | Some a => nd_at a [i] end).
Proof.
  intros Ef0 HS HM HZ. unfold shortcut_finder in Ef0. apply bind_Ok in Ef0. destruct Ef0 as (A & EA & Ef0).
  apply bind_Ok in Ef0. destruct Ef0 as (l & El & Ef0). apply bind_Ok in Ef0. destruct Ef0 as (x & Ex & Ef0).
  assert (Hnc : (1 <= nc)%nat).
  { unfold given_means in Ex. destruct (Nat.ltb_spec nc 1); [discriminate Ex|lia]. }
  unfold create in Ef0. cbn [compiled py_call a_params a_impl fh_object ig_object can_object] in Ef0.
  apply bind_Ok in Ef0. destruct Ef0 as (i0 & E1 & Ef0).
  cbn in Ef0. apply bind_Ok in Ef0. destruct Ef0 as (cs & Ecs & Ef0).
  apply bind_Ok in Ef0. destruct Ef0 as (_ & _ & Ef0). apply bind_Ok in Ef0. destruct Ef0 as (_ & _ & Ef0).
  apply bind_Ok in Ef0. destruct Ef0 as (_ & _ & Ef0). apply bind_Ok in Ef0. destruct Ef0 as (_ & _ & Ef0).
  injection Ef0 as Ef0. unfold reinitialize_random in Ef0. destruct (draw_normal _ _ _ _ _) as [w0 g0].
  split; [exact Hnc|].
  assert (V : forall s i, nd_shape s = [nc] -> (i < nc)%nat -> exists b, convert_and_broadcast s [nc] = Ok b /\ nd_at b [i] = nd_at s [i]).
  { intros s i H1 Hi. destruct (proj1 (proj2 (proj2 (C34_vector s nc))) H1) as (b & Eb & _ & Hb). exists b. split; [exact Eb|].
    apply Hb. repeat constructor; auto. }
  rewrite <- Ef0. cbn [reinit_with f_nc f_nf f_par f_np f_inter f_entropy f_ensemble].
  split; [reflexivity|]. split; [reflexivity|]. split; [reflexivity|]. split; [reflexivity|]. split; [|split].
  - intros phi r m Hr.
    assert (P : i_potential i0 phi r m = rsum nc (fun s => A r s * phi s m)).
    { unfold compiled, py_call in E1. destruct (forallb _ _) in E1; [|discriminate E1]. cbn [fh_object a_impl] in E1.
      injection E1 as <-. reflexivity. }
    change (i_potential i0 phi r m = rsum nc (fun s => 1 / 2 * (nd_at chis [r; s] + nd_at chis [s; r]) * phi s m)).
    rewrite P. apply rsum_ext. intros s Hs.
    unfold given_chis in EA. apply bind_Ok in EA. destruct EA as (b & Eb & EA). injection EA as <-.
    destruct (proj1 (proj2 (proj2 (proj2 (proj2 (proj2 (proj2 (C34_matrix chis nc))))))) HS) as (b' & Eb' & _ & Hb).
    rewrite Eb in Eb'. injection Eb' as <-. unfold symmetrize, mat_of_nd.
    rewrite !Hb by (repeat constructor; auto). reflexivity.
  - exists l. split; [reflexivity|]. intros i Hi. unfold given_sizes in El. destruct sizes as [s|]; [|now injection El as <-].
    apply bind_Ok in El. destruct El as (b & Eb & El). injection El as <-.
    destruct (V s i (HZ s eq_refl) Hi) as (b' & Eb' & Hb). rewrite Eb in Eb'. injection Eb' as <-. exact Hb.
  - exists x. split; [reflexivity|]. intros i Hi. unfold given_means in Ex. destruct (Nat.ltb_spec nc 1); [discriminate Ex|].
    destruct means as [s|]; [|now injection Ex as <-].
    apply bind_Ok in Ex. destruct Ex as (b & Eb & Ex). injection Ex as <-.
    destruct (V s i (HM s eq_refl) Hi) as (b' & Eb' & Hb). rewrite Eb in Eb'. injection Eb' as <-. exact Hb.
Qed.

(** C56: what find_coexisting_phases returns.  [raw] is the result of the run of
    a finder built from the arguments. *)
Theorem C56_pipeline nc chis means sizes cons np par kw g r info :
  rng_contract ops -> fcluster_spec fcluster -> argsort_spec argsort -> 0 <= m_thr par ->
  find_coexisting_phases ops no fcluster argsort nc chis means sizes cons np par kw g = Ok (r, info) ->
  exists f f' raw d,
    shortcut_finder ops no nc chis means sizes cons np par kw g = Ok f /\
    run ops f None None None = (f', Ok raw) /\
    f_diag f' = Some d /\ info = Some d /\
    total_volume r = 1 /\ (forall v, In v (p_vol r) -> 0 < v <= 1) /\
    p_nc r = nc /\ (1 <= num_phases r <= f_np f)%nat /\ shaped r /\ sorted_by_top r /\
    (forall i, (i < nc)%nat -> mean_fraction r i = mean_fraction raw i) /\
    (* rows add up to one within the reported incompressibility *)
    (forall row, In row (p_frac r) -> Rabs (lsum row (fun x => x) - 1) <= d_incomp d) /\
    (forall row i x, In row (p_frac r) -> (i < nc)%nat -> given_means nc means = Ok x -> 0 <= x i -> 0 <= nth i row 0).
Proof.
  intros HR HC HA Ht H. unfold find_coexisting_phases in H. apply bind_Ok in H. destruct H as (f & Ef & H).
  destruct (run ops f None None None) as [f' rr] eqn:ER. apply bind_Ok in H. destruct H as (raw & -> & H).
  pose proof Ef as Ef0. unfold shortcut_finder in Ef0. apply bind_Ok in Ef0. destruct Ef0 as (A & EA & Ef0).
  apply bind_Ok in Ef0. destruct Ef0 as (l & El & Ef0). apply bind_Ok in Ef0. destruct Ef0 as (x & Ex & Ef0).
  unfold create in Ef0. cbn [compiled py_call a_params a_impl fh_object ig_object can_object] in Ef0.
  apply bind_Ok in Ef0. destruct Ef0 as (i0 & E1 & Ef0).
  cbn in Ef0. apply bind_Ok in Ef0. destruct Ef0 as (cs & Ecs & Ef0).
  apply bind_Ok in Ef0. destruct Ef0 as (_ & _ & Ef0). apply bind_Ok in Ef0. destruct Ef0 as (_ & _ & Ef0).
  apply bind_Ok in Ef0. destruct Ef0 as (_ & _ & Ef0). apply bind_Ok in Ef0. destruct Ef0 as (_ & _ & Ef0).
  injection Ef0 as Ef0. unfold reinitialize_random in Ef0. destruct (draw_normal _ _ _ _ _) as [w0 g0].
  assert (Fnc : f_nc f = nc) by (rewrite <- Ef0; reflexivity).
  assert (Fpar : f_par f = par) by (rewrite <- Ef0; reflexivity).
  assert (Fent : f_entropy f = ig_compiled nc l) by (rewrite <- Ef0; reflexivity).
  assert (Fens : f_ensemble f = can_compiled nc x) by (rewrite <- Ef0; reflexivity).
  assert (Hnc : (1 <= nc)%nat).
  { unfold given_means in Ex. destruct (Nat.ltb_spec nc 1); [discriminate Ex|lia]. }
  assert (Hnp : (1 <= f_np f)%nat) by (rewrite <- Ef0; cbn; destruct np as [[|np]|]; lia).
  destruct (C17_shape ops f None None None f' raw ER) as (L1 & L2 & L3 & L4).
  pose proof (C17_volumes ops f None None None f' raw HR ltac:(rewrite Fpar; exact Ht) ER) as HV.
  assert (HB : builtin_with f x).
  { split; [rewrite Fent; left; eauto|]. rewrite Fent, Fens, Fnc. split; [reflexivity|]. now left. }
  assert (HD : exists d, f_diag f' = Some d).
  { apply run_inv in ER. destruct ER as (tr & inner & j & w & rep & n & J & phi & gg & RF). rewrite (rf_f RF). eexists; reflexivity. }
  destruct HD as [d Hd].
  destruct (post_process raw HC HA) as (q & Eq & Sq & Nq & Lq & Tq & Vq & Top & Mq & Bq).
  - split; [congruence|]. apply Forall_forall. intros row Hr. rewrite L3. auto.
  - rewrite L3, Fnc. lia.
  - unfold num_phases. lia.
  - intros v Hv. specialize (HV v Hv). rewrite Fpar in HV. lra.
  - assert (E : (let* c := get_clusters fcluster raw in let* s := ph_sort argsort c in let* p := ph_normalize s in Ok (p, f_diag f')) = Ok (q, f_diag f')).
    { apply bind_Ok in Eq. destruct Eq as (c & -> & Eq). cbn [bind]. apply bind_Ok in Eq. destruct Eq as (s & -> & Eq). cbn [bind].
      rewrite Eq. reflexivity. }
    rewrite E in H. injection H as <- <-.
    rewrite L3, Fnc in *.
    exists f, f', raw, d. split; [exact Ef|]. split; [exact ER|]. split; [exact Hd|]. split; [exact Hd|].
    split; [exact Tq|]. split; [exact Vq|]. split; [exact Nq|].
    split; [unfold num_phases in *; lia|]. split; [exact Sq|]. split; [exact Top|]. split; [exact Mq|]. split.
    + assert (RS : forall row, In row (p_frac raw) -> 1 - d_incomp d <= combination nc (fun _ => 1) row <= 1 + d_incomp d).
      { intros row Hr. apply (In_nth _ _ []) in Hr. destruct Hr as (k & Hk & <-).
        pose proof (C17_row_sums ops f None None None f' raw x d HR ltac:(rewrite Fpar; exact Ht) HB ER Hd k ltac:(lia)) as HS.
        rewrite Fnc in HS. unfold combination. rewrite (rsum_ext nc _ (frac raw k)) by (intros; unfold frac; ring).
        apply Rabs_le_inv in HS. lra. }
      intros row Hr. specialize (Bq _ _ _ RS row Hr). rewrite lsum_nth.
      destruct Sq as [_ Sq]. rewrite Forall_forall in Sq. rewrite (Sq row Hr), Nq.
      unfold combination in Bq. rewrite (rsum_ext nc _ (fun i => nth i row 0)) in Bq by (intros; ring).
      apply Rabs_le. lra.
    + intros row i x' Hr Hi Ex' Hx. rewrite Ex in Ex'. injection Ex' as <-.
      assert (RN : exists hi, forall row, In row (p_frac raw) -> 0 <= combination nc (fun j => if Nat.eqb j i then 1 else 0) row <= hi).
      { assert (BD : forall rows : list (list R), exists hi, forall row, In row rows -> nth i row 0 <= hi).
        { induction rows as [|r0 rows [hi IH]]; [exists 0; easy|]. exists (Rmax (nth i r0 0) hi).
          intros r1 [<-|H1]; [apply Rmax_l|]. eapply Rle_trans; [now apply IH|apply Rmax_r]. }
        destruct (BD (p_frac raw)) as [hi Hhi]. exists hi. intros r1 Hr1.
        assert (EC : combination nc (fun j => if Nat.eqb j i then 1 else 0) r1 = nth i r1 0).
        { unfold combination. rewrite (rsum_single nc _ i Hi); [rewrite Nat.eqb_refl; ring|].
          intros j _ Hj. destruct (Nat.eqb_spec j i); [congruence|ring]. }
        rewrite EC. split; [|auto]. apply (In_nth _ _ []) in Hr1. destruct Hr1 as (k & Hk & <-).
        apply (C17_fractions ops f None None None f' raw x HR ltac:(rewrite Fpar; exact Ht) HB ER k i ltac:(lia) ltac:(lia)). exact Hx. }
      destruct RN as [hi RN]. specialize (Bq _ _ _ RN row Hr). unfold combination in Bq.
      rewrite (rsum_single nc _ i Hi) in Bq; [rewrite Nat.eqb_refl in Bq; lra|].
      intros j _ Hj. destruct (Nat.eqb_spec j i); [congruence|ring].
Qed.

(** C56: with the default threshold and without constraints it never fails for
    broadcastable arguments. *)
Theorem C56_succeeds nc chis means sizes np par kw g A l x :
  rng_contract ops -> fcluster_spec fcluster -> argsort_spec argsort ->
  (forall n, k_feat (o_class (no n)) = n) ->
  given_chis nc chis = Ok A -> given_sizes nc sizes = Ok l -> given_means nc means = Ok x ->
  m_thr par = 0 -> m_criterion par = "standard"%string -> 0 < m_ub par -> 0 < m_max_steps par -> 0 < m_interval par ->
  exists r d, find_coexisting_phases ops no fcluster argsort nc chis means sizes CA_none np par kw g = Ok (r, Some d).
Proof.
  intros HR HC HA Hno EA El Ex Ht Hcr Hub Hms Hin.
  assert (Hnc : (1 <= nc)%nat).
  { unfold given_means in Ex. destruct (Nat.ltb_spec nc 1); [discriminate Ex|lia]. }
  assert (CI : exists i, compiled (fh_object nc A) kw = Ok i /\ i_feat i = nc).
  { unfold compiled, py_call, filter_kwargs. cbn [fh_object a_params a_impl flat_map].
    destruct (dict_get kw "additional_chis_shift"); cbn; eexists; split; reflexivity. }
  destruct CI as (i & Ei & Fi).
  destruct (C21_constructor ops no (fh_object nc A) (ig_object nc l) (can_object nc x) CA_none np par kw g i
    (ig_compiled nc l) (can_compiled nc x) [no nc] Ei eq_refl eq_refl eq_refl) as (_ & _ & _ & HCr).
  destruct (HCr Fi eq_refl) as (f & Ef & Fnc & Fnf & Hcomp).
  { intros o [<-|[]]. unfold cfeat. apply Hno. }
  assert (SF : shortcut_finder ops no nc chis means sizes CA_none np par kw g = Ok f).
  { unfold shortcut_finder. rewrite EA, El, Ex. exact Ef. }
  pose proof Ef as Ef0. unfold create in Ef0. rewrite Ei in Ef0.
  cbn [compiled py_call a_params a_impl ig_object can_object filter_kwargs flat_map forallb bind compile_cons] in Ef0.
  apply bind_Ok in Ef0. destruct Ef0 as (_ & _ & Ef0). apply bind_Ok in Ef0. destruct Ef0 as (_ & _ & Ef0).
  apply bind_Ok in Ef0. destruct Ef0 as (_ & _ & Ef0). apply bind_Ok in Ef0. destruct Ef0 as (_ & _ & Ef0).
  injection Ef0 as Ef0. unfold reinitialize_random in Ef0. destruct (draw_normal _ _ _ _ _) as [w0 g0].
  assert (Fpar : f_par f = par) by (rewrite <- Ef0; reflexivity).
  assert (Hnp : (1 <= f_np f)%nat) by (rewrite <- Ef0; cbn; destruct np as [[|np]|]; lia).
  assert (HB : builtin f).
  { rewrite <- Ef0. split; [left; eexists _, _; reflexivity|eexists _, _; left; reflexivity]. }
  destruct (C03_run_succeeds ops no f None None None HR) as (f' & raw & ER); rewrite ?Fpar; cbn [opt]; auto.
  - eapply hist_create; eauto.
  - destruct (C17_shape ops f None None None f' raw ER) as (L1 & L2 & L3 & L4).
    pose proof (C17_volumes ops f None None None f' raw HR ltac:(rewrite Fpar; lra) ER) as HV.
    destruct (post_process raw HC HA) as (q & Eq & _).
    + split; [congruence|]. apply Forall_forall. intros row Hr. rewrite L3. auto.
    + rewrite L3, Fnc. exact Hnc.
    + unfold num_phases. lia.
    + intros v Hv. specialize (HV v Hv). rewrite Fpar in HV. lra.
    + pose proof ER as ER'. apply run_inv in ER'. destruct ER' as (tr & inner & j & w & rep & n & J & phi & gg & RF).
      exists q. eexists. unfold find_coexisting_phases. rewrite SF. cbn [bind]. rewrite ER. cbn [bind].
      apply bind_Ok in Eq. destruct Eq as (c & -> & Eq). cbn [bind]. apply bind_Ok in Eq. destruct Eq as (s & -> & Eq). cbn [bind].
      rewrite Eq. cbn [bind]. rewrite (rf_f RF). reflexivity.
Qed.
End Props.
