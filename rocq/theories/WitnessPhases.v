(** WitnessPhases.v -- concrete cases for C26-C32. *)

From Coq Require Import String Reals Lra Lia List Bool Arith ZArith Permutation Sorted.
From Verif Require Import Base ModelCommon ModelKernel ModelPhases ProofsPhases Examples PropertiesPhases.
Import ListNotations.
Open Scope R_scope.

(** an admissible argsort *)
Definition argsort0 (row : list R) : list nat :=
  sort_by (fun a b => Rleb (nth a row 0) (nth b row 0)) (seq 0 (length row)).

Lemma argsort0_spec : argsort_spec argsort0.
Proof.
  intros row. split; [apply sort_perm|]. intros a b Hab.
  assert (HS : StronglySorted (fun x y => Rleb (nth x row 0) (nth y row 0) = true) (argsort0 row)).
  { apply sort_sorted.
    - intros x y H. apply Rleb_false in H. apply Rleb_true. lra.
    - intros x y z H1 H2. apply Rleb_true in H1, H2. apply Rleb_true. lra. }
  assert (Hab' : (a < b < length (argsort0 row))%nat)
    by (unfold argsort0; rewrite sort_length, seq_length; exact Hab).
  apply (StronglySorted_nth _ _ O HS a b) in Hab'. now apply Rleb_true.
Qed.

(** three compartments: two rich in component 1, one in component 0 *)
Definition ph3 : phases :=
  {| p_vol := [1; 2; 3]; p_frac := [[1 / 10; 9 / 10]; [4 / 5; 1 / 5]; [1 / 5; 4 / 5]]; p_nc := 2 |}.

Lemma ph3_shaped : shaped ph3.
Proof. split; [reflexivity|]. cbn. auto. Qed.

Example C26_case :
  fitting (nd_of_vec (p_vol ph3)) (nd_of_rows (p_frac ph3) 2) 3 2 /\
  ~ (exists n c, fitting (nd_of_vec [1; 2]) (nd_of_rows (p_frac ph3) 2) n c) /\
  mk_phases (nd_of_vec [1; 2]) (nd_of_rows (p_frac ph3) 2) = Err ValueError.
Proof.
  split; [split; reflexivity|]. split; [|reflexivity].
  intros (n & c & H1 & H2). cbn in H1, H2. congruence.
Qed.

Lemma ph3_total : total_volume ph3 = 6.
Proof. unfold total_volume. cbn. lra. Qed.

Example C27_case : exists q, ph_normalize ph3 = Ok q /\ p_vol q = [1 / 6; 2 / 6; 3 / 6].
Proof.
  unfold ph_normalize. rewrite ph3_total. rewrite ph_copy_eq by (reflexivity || apply ph3_shaped).
  eexists. split; reflexivity.
Qed.

(** the phase rich in component 0 comes first, the other two keep their order *)
Example C28_case : exists q, ph_sort argsort0 ph3 = Ok q /\
  p_vol q = [2; 1; 3] /\ p_frac q = [[4 / 5; 1 / 5]; [1 / 10; 9 / 10]; [1 / 5; 4 / 5]].
Proof.
  assert (L : forall a b, a <= b -> Rleb a b = true) by (intros; now apply Rleb_true).
  assert (N : forall a b, b < a -> Rleb a b = false) by (intros; now apply Rleb_false).
  assert (E : map argsort0 (p_frac ph3) = [[0; 1]; [1; 0]; [0; 1]]%nat).
  { cbn [map p_frac ph3]. unfold argsort0. cbn [length seq]. unfold sort_by. cbn [fold_right insert_by nth].
    rewrite (L (1 / 10) (9 / 10)), (N (4 / 5) (1 / 5)), (L (1 / 5) (4 / 5)) by lra. reflexivity. }
  unfold ph_sort. rewrite E. cbn [Nat.eqb p_nc ph3].
  replace (lexsort [[0; 1]; [1; 0]; [0; 1]]%nat) with [1; 0; 2]%nat by reflexivity.
  rewrite ph_copy_eq; [|reflexivity|cbn; auto]. eexists. repeat split.
Qed.

(** the clustering puts the first and the last compartment together *)
Definition fcluster3 (rows : list (list R)) : list nat := map (fun k => if Nat.eqb k 1 then 2%nat else 1%nat) (seq 0 (length rows)).

Lemma fcluster3_spec : fcluster_spec fcluster3.
Proof. intros rows. unfold fcluster3. now rewrite map_length, seq_length. Qed.

Example C29_case : exists q, get_clusters fcluster3 ph3 = Ok q /\ p_vol q = [4; 2] /\
  p_frac q = [[7 / 40; 33 / 40]; [4 / 5; 1 / 5]].
Proof.
  unfold get_clusters. cbn [num_phases ph3 p_vol length Nat.ltb Nat.leb p_frac].
  replace (np_unique (fcluster3 _)) with [1; 2]%nat by reflexivity.
  unfold fcluster3. cbn [length seq map Nat.eqb]. unfold collect, np_average, select.
  cbn [combine filter p_frac p_vol p_nc map snd ph3 Nat.eqb lsum seq nth].
  destruct (Reqb (1 + (3 + 0)) 0) eqn:E1; [apply Reqb_true in E1; lra|].
  destruct (Reqb (2 + 0) 0) eqn:E2; [apply Reqb_true in E2; lra|]. cbn [bind].
  rewrite ph_copy_eq; [|reflexivity|cbn; auto]. eexists. split; [reflexivity|].
  cbn [p_vol p_frac]. split; repeat (f_equal; try lra).
Qed.

Example C29_positive_case : forall k, (k < num_phases ph3)%nat -> 0 < nth k (p_vol ph3) 0.
Proof. intros [|[|[|k]]] H; cbn in *; try lra. lia. Qed.

(** a clustering as in C30: it sees only distances and keeps far phases apart *)
Definition fcluster_far (rows : list (list R)) : list nat :=
  match pdist rows with
  | [d] => if Rltb (1 / 100) d then [2; 1]%nat else [1; 1]%nat
  | l => map (fun _ => 1%nat) l
  end.

Example C30_case :
  (forall rows rows', pdist rows = pdist rows' -> fcluster_far rows = fcluster_far rows') /\
  (exists a b, fcluster_far [rowA; rowB] = [a; b] /\ a <> b).
Proof.
  split.
  - intros rows rows' H. unfold fcluster_far. now rewrite H.
  - exists 2%nat, 1%nat. split; [|lia]. unfold fcluster_far, pdist, distance, rowA, rowB. cbn [map app].
    destruct (Rltb _ _) eqn:E; [reflexivity|]. apply Rltb_false in E. exfalso. apply (Rle_not_lt _ _ E).
    rewrite <- (sqrt_square (1 / 100)) at 1 by lra. apply sqrt_lt_1_alt. cbn. lra.
Qed.

(** normalising and sorting a result: same info, own dictionary *)
Definition h1 : heap := {| h_next := 1; h_cell := fun _ => [("steps"%string, 10)] |}.
Definition res3 : pobj := {| b_ph := ph3; b_info := Some O |}.

Example C31_case : exists h' b', do_objs [Normalize; Sort argsort0] h1 res3 = Ok (h', b') /\
  b_info b' = Some 2%nat /\ h_cell h' 2 = [("steps"%string, 10)] /\ allocated h1 res3 /\
  Exists copies [Normalize; Sort argsort0].
Proof.
  destruct (C27_normalize ph3 ph3_shaped) as (q & Hq & Sq & _ & _ & Nq & _); [rewrite ph3_total; lra|].
  destruct (C28_sort argsort0 q argsort0_spec Sq) as (r & idx & Hr & _); [rewrite Nq; cbn; lia|].
  cbn [do_objs do_obj]. unfold obj_normalize. cbn [b_ph res3]. rewrite Hq. cbn [obj_copy bind b_info res3 heap_alloc].
  unfold obj_sort. cbn [b_ph]. rewrite Hr. cbn [obj_copy bind b_info heap_alloc h1 h_next].
  do 2 eexists. split; [reflexivity|]. split; [reflexivity|]. split; [reflexivity|].
  split; [unfold allocated; cbn; lia|]. constructor. exact I.
Qed.

(** three components from the generator of Examples.v *)
Example C32_case : exists phis g', random_composition ops0 3 0%nat = Ok (phis, g') /\ rsum 3 phis = 1 /\ 0 < phis 0%nat.
Proof.
  do 2 eexists. split; [reflexivity|]. unfold upd. cbn. split; lra.
Qed.
