(** PropertiesMeans.v -- C79: ensemble objects and the warning of the canonical
    ensemble. *)

From Coq Require Import Reals Lra Lia List Bool Arith ZArith.
From Verif Require Import Base ModelCommon ModelPhases ModelParts ModelKernel ModelFinder ModelObjects.
From Verif Require Import ProofsRun ProofsHistory PropertiesRun PropertiesFinder PropertiesObjects PropertiesConsistency ModelMeans.
Import ListNotations.
Open Scope R_scope.

(** tolerance of the warning *)
Definition slack : R := 1 / 10 ^ 8 + 1 / 10 ^ 5.

Lemma isclose_spec a : isclose_one a = true <-> Rabs (a - 1) <= slack.
Proof. unfold isclose_one, slack. rewrite Rabs_R1, Rmult_1_r. apply Rleb_true. Qed.

(** broadcasting with and without [np.atleast_1d] *)
Lemma at_least a n : match broadcast_to (atleast_1d a) [n], broadcast_to a [n] with
  | Ok b, Ok b' => forall i, nd_at b [i] = nd_at b' [i] | Err e, Err e' => e = e' | _, _ => False end.
Proof.
  unfold atleast_1d. destruct (nd_shape a) as [|k l] eqn:E.
  - unfold broadcast_to. cbn [nd_shape]. rewrite E. cbn [rev app bc_ok]. rewrite orb_true_r. cbn. reflexivity.
  - destruct (broadcast_to a [n]); auto.
Qed.

(** What the user gave, entry by entry. *)
Definition given (a : nd) (n : nat) (x : vec) : Prop :=
  (nd_shape a = [] /\ forall i, (i < n)%nat -> x i = nd_at a []) \/
  (nd_shape a = [1%nat] /\ forall i, (i < n)%nat -> x i = nd_at a [O]) \/
  (nd_shape a = [n] /\ forall i, (i < n)%nat -> x i = nd_at a [i]).
Definition unfit (a : nd) (n : nat) : Prop := nd_shape a <> [] /\ nd_shape a <> [1%nat] /\ nd_shape a <> [n].

Lemma broadcast_given a n : match convert_and_broadcast a [n] with
  | Ok b => given a n (fun i => nd_at b [i]) | Err e => e = ValueError /\ unfit a n end.
Proof.
  destruct (C34_vector a n) as (H0 & H1 & Hn & HE). unfold spread in *.
  destruct (list_eq_dec Nat.eq_dec (nd_shape a) []) as [E|N0].
  - destruct (H0 E) as (b & -> & _ & V). left. split; [exact E|]. intros i Hi. apply V. repeat constructor. exact Hi.
  - destruct (list_eq_dec Nat.eq_dec (nd_shape a) [1%nat]) as [E|N1].
    + destruct (H1 E) as (b & -> & _ & V). right. left. split; [exact E|]. intros i Hi. apply V. repeat constructor. exact Hi.
    + destruct (list_eq_dec Nat.eq_dec (nd_shape a) [n]) as [E|N2].
      * destruct (Hn E) as (b & -> & _ & V). right. right. split; [exact E|]. intros i Hi. apply V. repeat constructor. exact Hi.
      * rewrite HE by auto. split; [reflexivity|]. split; [exact N0|]. split; [exact N1|exact N2].
Qed.

Lemma ce_set_spec n a : match ce_set n a with
  | Ok (o, w) => ce_nc o = n /\ given a n (ce_means o) /\ (w = true <-> slack < Rabs (rsum n (ce_means o) - 1))
  | Err e => e = ValueError /\ unfit a n end.
Proof.
  pose proof (broadcast_given a n) as B. pose proof (at_least a n) as L. unfold convert_and_broadcast in B. unfold ce_set.
  destruct (broadcast_to (atleast_1d a) [n]) as [b|e], (broadcast_to a [n]) as [b'|e']; try contradiction; cbn [bind].
  - cbn [ce_nc ce_means]. split; [reflexivity|]. split.
    + destruct B as [(E & V)|[(E & V)|(E & V)]]; [left|right; left|right; right]; (split; [exact E|]); intros i Hi; rewrite <- L; now apply V.
    + rewrite negb_true_iff, <- not_true_iff_false, isclose_spec. split; [apply Rnot_le_lt|apply Rlt_not_le].
  - subst e'. exact B.
Qed.

(** Construction and assignment of phi_means.  The warning is given exactly if
    the sum of the means differs from one by more than 1e-5 + 1e-8. *)
Theorem C79_canonical num_comp a : match ce_new num_comp a with
  | Ok (o, w) => (1 <= num_comp)%Z /\ Z.of_nat (ce_nc o) = num_comp /\
      (w = true <-> slack < Rabs (rsum (ce_nc o) (ce_means o) - 1)) /\
      match a with
      | Some a => given a (ce_nc o) (ce_means o)
      | None => w = false /\ rsum (ce_nc o) (ce_means o) = 1 /\ forall i, (i < ce_nc o)%nat -> ce_means o i = 1 / IZR num_comp
      end
  | Err e => e = ValueError /\ ((num_comp < 1)%Z \/ exists a', a = Some a' /\ unfit a' (Z.to_nat num_comp))
  end.
Proof.
  unfold ce_new. destruct (Z.ltb_spec num_comp 1) as [L|L]; [auto|]. set (n := Z.to_nat num_comp).
  assert (Hn : Z.of_nat n = num_comp) by (unfold n; lia). destruct a as [a|].
  - pose proof (ce_set_spec n (atleast_1d a)) as S. destruct (ce_set n (atleast_1d a)) as [[o w]|e].
    + destruct S as (S1 & S2 & S3). rewrite S1 in *. split; [exact L|]. split; [exact Hn|]. split; [exact S3|].
      unfold atleast_1d in S2. destruct (nd_shape a) as [|k l] eqn:E; [|exact S2]. left. split; [exact E|].
      unfold given in S2. cbn [nd_shape nd_at] in S2. destruct S2 as [(? & _)|[(_ & V)|(_ & V)]]; [discriminate|exact V|exact V].
    + destruct S as (-> & U1 & U2 & U3). split; [reflexivity|]. right. exists a. split; [reflexivity|].
      unfold atleast_1d in *. destruct (nd_shape a) as [|k l] eqn:E; [cbn in U2; congruence|]. unfold unfit. rewrite E in *. auto.
  - pose proof (ce_set_spec n {| nd_shape := [n]; nd_at := fun _ => 1 / IZR num_comp |}) as S. destruct (ce_set n _) as [[o w]|e].
    + destruct S as (S1 & S2 & S3). rewrite S1 in *. split; [exact L|]. split; [exact Hn|]. split; [exact S3|].
      assert (V : forall i, (i < n)%nat -> ce_means o i = 1 / IZR num_comp) by (destruct S2 as [(? & _)|[(_ & V)|(_ & V)]]; [discriminate|exact V|exact V]).
      assert (T : rsum n (ce_means o) = 1).
      { rewrite (rsum_ext n _ (fun _ => 1 / IZR num_comp) V), rsum_const, INR_IZR_INZ, Hn. field. apply IZR_neq. lia. }
      split; [|split; [exact T|exact V]]. apply not_true_iff_false. rewrite S3, T. unfold slack.
      replace (1 - 1) with 0 by ring. rewrite Rabs_R0. lra.
    + destruct S as (_ & _ & _ & U). cbn in U. congruence.
Qed.

(** A single number is used for every component: without a warning only if it
    is close to 1/n. *)
Theorem C79_scalar n x o w : ce_set n (scalar x) = Ok (o, w) -> (w = true <-> slack < Rabs (INR n * x - 1)).
Proof.
  intros E. pose proof (ce_set_spec n (scalar x)) as S. rewrite E in S. destruct S as (_ & G & W).
  assert (V : forall i, (i < n)%nat -> ce_means o i = x) by (destruct G as [(_ & V)|[(? & _)|(? & _)]]; [exact V|discriminate|discriminate]).
  rewrite W, (rsum_ext n _ (fun _ => x) V), rsum_const. tauto.
Qed.

(** A finder with default tolerance never reports convergence for means that
    were warned about: it performs all scheduled steps. *)
Theorem C79_warned {G St} (ops : rng_ops G) (f f' : finder G St) a t i ph d o :
  slack < Rabs (rsum (ce_nc o) (ce_means o) - 1) ->
  builtin_entropy (f_entropy f) -> s_comp (f_entropy f) = f_nc f -> f_nc f = ce_nc o ->
  f_ensemble f = can_compiled (ce_nc o) (ce_means o) -> 0 <= m_thr (f_par f) -> opt t (m_tolerance (f_par f)) <= 1 / 10 ^ 5 ->
  run ops f a t i = (f', Ok ph) -> f_diag f' = Some d ->
  exists tr inner, schedule (opt a (m_max_steps (f_par f))) (opt i (m_interval (f_par f))) = Ok (tr, inner) /\ d_steps d = Z.of_nat (tr * inner).
Proof.
  intros HW HE HC HN HX Ht HT HR HD. rewrite <- HN in HX.
  destruct (C71_run ops f a t i f' ph (ce_means o) d HE HC HX Ht HR HD) as (_ & H). apply H.
  rewrite HN. unfold slack in HW. lra.
Qed.

(** The converse gap: means accepted without a warning although their defect
    reaches the default tolerance. *)
Theorem C79_silent_refuted : exists o, ce_new 2 (Some (nd_of_vec [1 / 2 + 1 / 10 ^ 5; 1 / 2])) = Ok (o, false) /\
  1 / 10 ^ 5 <= Rabs (rsum (ce_nc o) (ce_means o) - 1).
Proof.
  pose proof (C79_canonical 2 (Some (nd_of_vec [1 / 2 + 1 / 10 ^ 5; 1 / 2]))) as H.
  destruct (ce_new 2 _) as [[o w]|e] eqn:E.
  - destruct H as (_ & N & W & V). assert (N2 : ce_nc o = 2%nat) by lia. rewrite N2 in *.
    assert (T : rsum 2 (ce_means o) - 1 = 1 / 10 ^ 5).
    { destruct V as [(? & _)|[(? & _)|(_ & V)]]; [discriminate|discriminate|]. cbn [rsum]. rewrite !V by lia. cbn [nd_of_vec nd_at nth]. lra. }
    exists o. rewrite N2, T in *. rewrite Rabs_pos_eq in * by lra. split; [|lra]. f_equal. f_equal.
    apply not_true_iff_false. rewrite W. unfold slack. lra.
  - exfalso. destruct H as (_ & [H|(a' & Ea & U1 & U2 & U3)]); [lia|]. injection Ea as <-. apply U3. reflexivity.
Qed.

(** Grand-canonical constructors. *)
Theorem C79_activity num_comp a : match ge_new num_comp a with
  | Ok o => (1 <= num_comp)%Z /\ Z.of_nat (ge_nc o) = num_comp /\ given a (ge_nc o) (ge_act o)
  | Err e => e = ValueError /\ ((num_comp < 1)%Z \/ unfit a (Z.to_nat num_comp))
  end.
Proof.
  unfold ge_new, ge_set. destruct (Z.ltb_spec num_comp 1) as [L|L]; [auto|]. pose proof (broadcast_given a (Z.to_nat num_comp)) as B.
  destruct (convert_and_broadcast a [Z.to_nat num_comp]) as [b|e]; cbn [bind]; [|destruct B; auto]. cbn [ge_nc ge_act]. split; [exact L|]. split; [lia|exact B].
Qed.

(** The activities encode the requested potentials and sizes; the potentials
    can be read back for positive sizes. *)
Theorem C79_from_mu num_comp mus sizes : match ge_from_mu num_comp mus sizes with
  | Ok o => (1 <= num_comp)%Z /\ Z.of_nat (ge_nc o) = num_comp /\ exists mu l, given mus (ge_nc o) mu /\
      match sizes with Some a => given a (ge_nc o) l | None => forall i, l i = 1 end /\
      forall i, (i < ge_nc o)%nat -> ge_act o i = l i * exp (l i * mu i) /\ (0 < l i -> ln (ge_act o i / l i) / l i = mu i)
  | Err e => e = ValueError /\ ((num_comp < 1)%Z \/ unfit mus (Z.to_nat num_comp) \/ exists a, sizes = Some a /\ unfit a (Z.to_nat num_comp))
  end.
Proof.
  unfold ge_from_mu. destruct (Z.ltb_spec num_comp 0) as [L|L]; [split; [reflexivity|left; lia]|]. set (n := Z.to_nat num_comp).
  pose proof (broadcast_given mus n) as B. destruct (convert_and_broadcast mus [n]) as [b|e]; cbn [bind]; [|destruct B; auto].
  assert (HL : match (match sizes with None => Ok (fun _ => 1) | Some a => let* c := convert_and_broadcast a [n] in Ok (fun i => nd_at c [i]) end) with
     | Ok l => match sizes with Some a => given a n l | None => forall i, l i = 1 end
     | Err e => e = ValueError /\ exists a, sizes = Some a /\ unfit a n end).
  { destruct sizes as [a|]; [|auto]. pose proof (broadcast_given a n) as C. destruct (convert_and_broadcast a [n]) as [c|e]; cbn [bind]; [exact C|].
    destruct C as (-> & C). split; [reflexivity|]. eauto. }
  destruct (match sizes with None => _ | Some a => _ end) as [l|e]; cbn [bind]; [|destruct HL as (-> & HL); auto].
  pose proof (C79_activity num_comp {| nd_shape := [n]; nd_at := fun idx => match idx with [i] => gc_activity_from_mu (fun i => nd_at b [i]) l i | _ => 0 end |}) as A.
  destruct (ge_new num_comp _) as [o|e].
  - destruct A as (A1 & A2 & A3). split; [exact A1|]. split; [exact A2|]. assert (N : ge_nc o = n) by (unfold n; lia). rewrite N in *.
    exists (fun i => nd_at b [i]), l. split; [exact B|]. split; [destruct sizes; exact HL|]. intros i Hi.
    assert (V : ge_act o i = l i * exp (l i * nd_at b [i])).
    { destruct A3 as [(? & _)|[(E & V)|(_ & V)]]; [discriminate| |rewrite V by exact Hi; reflexivity].
      rewrite V by exact Hi. cbn in E. injection E as E. replace i with O by lia. reflexivity. }
    split; [exact V|]. intros Hl. rewrite V. replace (l i * exp (l i * nd_at b [i]) / l i) with (exp (l i * nd_at b [i])) by (field; lra).
    rewrite ln_exp. field. lra.
  - destruct A as (-> & [A|(_ & _ & A)]); [auto|]. exfalso. apply A. reflexivity.
Qed.

(** two components, equimolar by default; one number for both components *)
Example case_C79 : (exists o, ce_new 2 None = Ok (o, false)) /\ (exists o, ce_new 2 (Some (scalar (3 / 4))) = Ok (o, true)) /\
  (exists o, ge_from_mu 2 (nd_of_vec [1; 2]) (Some (scalar 2)) = Ok o) /\ ce_new 0 None = Err ValueError.
Proof.
  split; [|split; [|split; [|reflexivity]]].
  - pose proof (C79_canonical 2 None) as H. destruct (ce_new 2 None) as [[o w]|e]; [destruct H as (_ & _ & _ & -> & _); eauto|].
    exfalso. destruct H as (_ & [H|(a & ? & _)]); [lia|discriminate].
  - pose proof (C79_canonical 2 (Some (scalar (3 / 4)))) as H. destruct (ce_new 2 _) as [[o w]|e].
    + exists o. f_equal. f_equal. destruct H as (_ & N & W & V). assert (N2 : ce_nc o = 2%nat) by lia. rewrite N2 in *. apply W.
      destruct V as [(_ & V)|[(? & _)|(? & _)]]; [|discriminate|discriminate]. cbn [rsum]. rewrite !V by lia. cbn.
      unfold slack. rewrite Rabs_pos_eq; lra.
    + exfalso. destruct H as (_ & [H|(a & Ea & U & _)]); [lia|]. injection Ea as <-. apply U. reflexivity.
  - eexists. reflexivity.
Qed.
