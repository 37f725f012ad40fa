(** ProofsRun.v -- run() in terms of single steps; schedule; convergence. *)

From Coq Require Import String Reals Lra Lia List Bool Arith ZArith.
From Verif Require Import Base ModelCommon ModelParts ModelKernel ModelPhases ModelFinder
  ProofsKernel ProofsParts ProofsSteps ProofsCopy.
Import ListNotations.
Open Scope R_scope.

Section Run.
Context {G St : Type} (ops : rng_ops G).
Implicit Types (f : finder G St) (w : mstate G St).

(** The finder after steps that left the kernel state [k] and revived [c]
    compartments. *)
Definition advance f (k : kstate G St) (c : nat) : finder G St :=
  with_left (with_k f k) (f_left f - Z.of_nat c)%Z.

Lemma advance_advance f k1 c1 k2 c2 : advance (advance f k1 c1) k2 c2 = advance f k2 (c1 + c2).
Proof. unfold advance, with_left, with_k; simpl. f_equal. lia. Qed.

Lemma advance_0 f : advance f (f_k f) 0 = f.
Proof. destruct f. unfold advance, with_left, with_k; simpl. f_equal. lia. Qed.

Lemma kernel_advance f k c : kernel_of (advance f k c) = kernel_of f.
Proof. reflexivity. Qed.

(** [n] steps of a finder. *)
Definition fsteps f (n : nat) : res (mstate G St) :=
  steps ops (kernel_of f) (f_left f) n (start (f_k f)).

Definition safe_flag f w : bool :=
  Z.eqb (w_valid w) (Z.of_nat (count_valid (f_np f) (v_Js (w_k w)) (m_thr (f_par f)))).

Lemma metastep_inv f b k' rep c safe :
  metastep ops (kernel_of f) (S b) (f_left f) (f_k f) = Ok (k', rep, c, safe) ->
  exists w, fsteps f (S b) = Ok w /\ w_k w = k' /\ w_rep w = Some rep /\ w_count w = c /\
            safe = safe_flag f w.
Proof.
  unfold metastep, fsteps. fold (start (f_k f)). intros H. apply bind_Ok in H.
  destruct H as (w & E & H). exists w. split; [exact E|].
  destruct (w_rep w) as [r|]; [|discriminate]. injection H as <- <- <- <-. auto.
Qed.

Lemma fsteps_split f a b w1 :
  fsteps f a = Ok w1 ->
  fsteps f (a + S b) = res_map (shift_count (w_count w1)) (fsteps (advance f (w_k w1) (w_count w1)) (S b)).
Proof.
  intros E. unfold fsteps in *. rewrite steps_restart, E. cbn [bind].
  rewrite kernel_advance. reflexivity.
Qed.

(** The loop over metasteps performs [j] metasteps, i.e. [j * inner] steps. *)
Lemma run_loop_inv tol b n : forall (s s' : rstate G St) out,
  run_loop ops tol (S b) n s = (s', out) ->
  exists j w,
    (j <= n)%nat /\ fsteps (r_f s) (j * S b) = Ok w /\
    r_f s' = advance (r_f s) (w_k w) (w_count w) /\
    r_steps s' = (r_steps s + j * S b)%nat /\
    (j = O -> s' = s) /\
    ((0 < j)%nat -> exists rep, r_rep s' = Some rep /\ w_rep w = Some rep) /\
    match out with
    | Ok _ =>
        (m_criterion (f_par (r_f s)) = "standard"%string \/ j = O) /\
        ((j = n /\ (r_conv s' = true -> r_conv s = true \/
              exists rep, r_rep s' = Some rep /\ converged tol (safe_flag (r_f s) w) rep = true)) \/
         ((0 < j)%nat /\ r_conv s' = true /\ exists rep, r_rep s' = Some rep /\
              converged tol (safe_flag (r_f s) w) rep = true))
    | Err e =>
        (m_criterion (f_par (r_f s)) <> "standard"%string /\ j = 1%nat /\ e = ValueError) \/
        ((j < n)%nat /\ fsteps (r_f s) (j * S b + S b) = Err e)
    end.
Proof.
  induction n; intros s s' out.
  - simpl. intros H; injection H as <- <-. exists O, (start (f_k (r_f s))).
    simpl. split; [lia|]. split; [reflexivity|]. split; [symmetry; apply advance_0|].
    split; [lia|]. split; [auto|]. split; [lia|]. split; [auto|]. left. split; auto.
  - cbn [run_loop].
    destruct (metastep ops (kernel_of (r_f s)) (S b) (f_left (r_f s)) (f_k (r_f s)))
      as [[[[k' rep] c] safe]|e] eqn:EM.
    + apply metastep_inv in EM. destruct EM as (w1 & E1 & Hk & Hr & Hc & Hs).
      set (f' := with_left (with_k (r_f s) k') (f_left (r_f s) - Z.of_nat c)%Z).
      assert (Ef : f' = advance (r_f s) (w_k w1) (w_count w1)) by (rewrite Hk, Hc; reflexivity).
      destruct (String.eqb_spec (m_criterion (f_par (r_f s))) "standard") as [EC|EC].
      * destruct (converged tol safe rep) eqn:EV.
        -- intros H; injection H as <- <-. exists 1%nat, w1. simpl r_f. simpl r_rep. simpl r_conv. simpl r_steps.
           rewrite Nat.mul_1_l.
           split; [lia|]. split; [exact E1|]. split; [exact Ef|]. split; [lia|]. split; [lia|].
           split; [intros _; exists rep; auto|]. split; [auto|]. right.
           split; [lia|]. split; [auto|]. exists rep. subst safe. auto.
        -- intros H.
           apply IHn in H. destruct H as (j & w & Hj & EW & HF & HS & H0 & HRep & HOut).
           cbn [r_f] in *. 
           assert (EC' : m_criterion (f_par f') = m_criterion (f_par (r_f s))) by reflexivity.
           destruct j as [|j].
           ++ (* no further metastep *)
              specialize (H0 eq_refl). simpl in EW. injection EW as <-.
              exists 1%nat, w1. rewrite Nat.mul_1_l. split; [lia|]. split; [exact E1|].
              split; [rewrite H0; exact Ef|]. split; [rewrite H0; simpl; lia|].
              split; [lia|]. split; [intros _; exists rep; rewrite H0; auto|].
              destruct out as [u|e].
              ** split; [auto|]. destruct HOut as [_ [[HN HC]|[HN _]]]; [|lia].
                 left. split; [lia|]. intros Hcv. rewrite H0 in Hcv. simpl in Hcv. discriminate.
              ** destruct HOut as [(_ & HB & _)|[HL HE]]; [lia|]. right. split; [lia|].
                 rewrite (fsteps_split _ _ _ _ E1). simpl mult in HE. simpl plus in HE.
                 rewrite Ef in HE. rewrite HE. reflexivity.
           ++ (* at least one more *)
              pose proof (fsteps_split (r_f s) (S b) (b + j * S b) w1 E1) as EQ.
              replace (S (b + j * S b)) with (S j * S b)%nat in EQ by (simpl; lia).
              rewrite <- Ef in EQ. rewrite EW in EQ. simpl res_map in EQ.
              exists (S (S j)), (shift_count (w_count w1) w).
              split; [lia|]. split; [replace (S (S j) * S b)%nat with (S b + S j * S b)%nat by (simpl; lia); exact EQ|].
              split; [rewrite HF, Ef, advance_advance; reflexivity|].
              split; [rewrite HS; simpl; lia|]. split; [lia|].
              split; [intros _; exact (HRep ltac:(lia))|].
              destruct out as [u|e].
              ** split; [auto|]. destruct HOut as [_ [[HN HC]|[_ HC]]].
                 --- left. split; [lia|]. intros Hcv. right. destruct (HC Hcv) as [X|X]; [discriminate|exact X].
                 --- right. split; [lia|exact HC].
              ** destruct HOut as [(HX & _ & _)|[HL HE]].
                 --- exfalso. apply HX. rewrite EC'. exact EC.
                 --- right. split; [lia|].
                     pose proof (fsteps_split (r_f s) (S b) (b + S j * S b) w1 E1) as EQ2.
                     rewrite <- Ef in EQ2.
                     replace (S (b + S j * S b)) with (S j * S b + S b)%nat in EQ2 by (simpl; lia).
                     rewrite HE in EQ2. simpl res_map in EQ2.
                     replace (S (S j) * S b + S b)%nat with (S b + (S j * S b + S b))%nat by (simpl; lia).
                     exact EQ2.
      * intros H; injection H as <- <-. exists 1%nat, w1. simpl r_f. simpl r_rep. simpl r_conv. simpl r_steps.
        rewrite Nat.mul_1_l.
        split; [lia|]. split; [exact E1|]. split; [exact Ef|]. split; [lia|]. split; [lia|].
        split; [intros _; exists rep; auto|]. left. auto.
    + intros H; injection H as <- <-. exists O, (start (f_k (r_f s))).
      simpl. split; [lia|]. split; [reflexivity|]. split; [symmetry; apply advance_0|].
      split; [lia|]. split; [auto|]. split; [lia|]. right. split; [lia|].
      unfold metastep in EM. fold (start (f_k (r_f s))) in EM. fold (fsteps (r_f s) (S b)) in EM.
      destruct (fsteps (r_f s) (S b)) as [w|e'] eqn:EF; cbn [bind] in EM.
      * destruct (steps_S_rep _ _ _ _ _ _ EF) as [rp ER]. rewrite ER in EM. discriminate.
      * injection EM as <-. reflexivity.
Qed.

(* ------------------------------------------------------------------ *)
(** * Schedule *)

Lemma schedule_inner ms it tr inner : schedule ms it = Ok (tr, inner) -> exists b, inner = S b.
Proof.
  unfold schedule. destruct (Reqb it 0); [discriminate|]. destruct (Z.eqb _ 0); [discriminate|].
  intros H; injection H as _ <-. exists (Nat.pred (Z.to_nat (Z.max 1 (zceil ms / zceil (ms / it))))). lia.
Qed.

(** [zceil x] is the least integer not below [x]. *)
Lemma zceil_spec x : IZR (zceil x) - 1 < x <= IZR (zceil x).
Proof.
  unfold zceil. rewrite opp_IZR. destruct (base_Int_part (- x)). lra.
Qed.

Lemma zceil_unique x z : IZR z - 1 < x <= IZR z -> zceil x = z.
Proof.
  intros [H1 H2]. pose proof (zceil_spec x) as [H3 H4].
  assert (IZR (zceil x) < IZR (z + 1)) by (rewrite plus_IZR; lra).
  assert (IZR z < IZR (zceil x + 1)) by (rewrite plus_IZR; lra).
  apply lt_IZR in H, H0. lia.
Qed.

Lemma zceil_pos x : 0 < x -> (1 <= zceil x)%Z.
Proof.
  intros H. pose proof (zceil_spec x) as [_ H1].
  assert (0 < IZR (zceil x)) by lra. apply lt_IZR in H0. lia.
Qed.

Lemma zceil_mono x y : x <= y -> (zceil x <= zceil y)%Z.
Proof.
  intros H. pose proof (zceil_spec x) as [H1 _]. pose proof (zceil_spec y) as [_ H2].
  assert (IZR (zceil x) < IZR (zceil y + 1)) by (rewrite plus_IZR; lra). apply lt_IZR in H0. lia.
Qed.

(* ------------------------------------------------------------------ *)
(** * run *)

Definition opt (o : option R) (d : R) : R := match o with Some x => x | None => d end.

(** Everything a successful run tells. *)
Record run_facts f (a t i : option R) f' (ph : phases) (tr inner j : nat) w (rep : report)
    (n : nat) (J : vec) (phi : mat) (g : G) : Prop := {
  rf_sched : schedule (opt a (m_max_steps (f_par f))) (opt i (m_interval (f_par f))) = Ok (tr, inner);
  rf_inner : (1 <= inner)%nat;
  rf_j : (1 <= j <= tr)%nat;
  rf_steps : fsteps f (j * inner) = Ok w;
  rf_rep : w_rep w = Some rep;
  rf_copy : revive_by_copy ops (f_np f) (v_Js (w_k w)) (v_phis_comp (w_k w)) (m_thr (f_par f)) (v_g (w_k w))
            = Ok (n, J, phi, g);
  rf_ph : result_phases (f_nc f) (f_np f) J phi = Ok ph;
  rf_f : f' = with_diag (with_k (advance f (w_k w) (w_count w)) (k_with_g (w_k w) g))
                (Some {| d_steps := Z.of_nat (j * inner); d_incomp := e_incomp rep; d_omega := e_omega rep;
                         d_Js := e_Js rep; d_cons := e_cons rep;
                         d_left := (f_left f - Z.of_nat (w_count w))%Z |});
  rf_crit : m_criterion (f_par f) = "standard"%string;
  rf_conv : j = tr \/ converged (opt t (m_tolerance (f_par f))) (safe_flag f w) rep = true
}.

Lemma run_inv f a t i f' ph :
  run ops f a t i = (f', Ok ph) ->
  exists tr inner j w rep n J phi g, run_facts f a t i f' ph tr inner j w rep n J phi g.
Proof.
  unfold run. fold (opt a (m_max_steps (f_par f))). fold (opt t (m_tolerance (f_par f))).
  fold (opt i (m_interval (f_par f))).
  destruct (schedule _ _) as [[tr inner]|e] eqn:ES; [|discriminate].
  destruct (schedule_inner _ _ _ _ ES) as [b ->].
  destruct (run_loop _ _ _ _ _) as [s [u|e]] eqn:EL; [|discriminate].
  apply run_loop_inv in EL. cbn [r_f r_steps r_rep r_conv] in EL.
  destruct EL as (j & w & Hj & EW & HF & HS & H0 & HRep & HC1 & HC2).
  destruct (revive_by_copy _ _ _ _ _ _) as [[[[n J] phi] g]|e] eqn:ER; [|discriminate].
  destruct j as [|j].
  { rewrite (H0 eq_refl). simpl. discriminate. }
  destruct (HRep ltac:(lia)) as (rep & HR1 & HR2). rewrite HR1.
  intros H. injection H as <- HP.
  exists tr, (S b), (S j), w, rep, n, J, phi, g.
  rewrite HF in *. simpl in HS.
  constructor; auto; try lia.
  - unfold with_diag. simpl. rewrite HS. reflexivity.
  - destruct HC1; [auto|lia].
  - destruct HC2 as [[HN _]|(_ & _ & rep' & E1 & E2)]; [auto|]. right. congruence.
Qed.

(** How a run can fail (the schedule being fine). *)
Lemma run_err f a t i f' e :
  run ops f a t i = (f', Err e) ->
  schedule (opt a (m_max_steps (f_par f))) (opt i (m_interval (f_par f))) = Err e /\ f' = f \/
  exists tr inner j w, 
    schedule (opt a (m_max_steps (f_par f))) (opt i (m_interval (f_par f))) = Ok (tr, inner) /\
    (j <= tr)%nat /\ fsteps f (j * inner) = Ok w /\
    (exists g, f' = with_k (advance f (w_k w) (w_count w)) (k_with_g (w_k w) g)) /\
    ((m_criterion (f_par f) <> "standard"%string /\ e = ValueError) \/
     (tr = O /\ e = UnboundLocalError) \/
     fsteps f (j * inner + inner) = Err e \/
     revive_by_copy ops (f_np f) (v_Js (w_k w)) (v_phis_comp (w_k w)) (m_thr (f_par f)) (v_g (w_k w)) = Err e).
Proof.
  unfold run. fold (opt a (m_max_steps (f_par f))). fold (opt t (m_tolerance (f_par f))).
  fold (opt i (m_interval (f_par f))).
  destruct (schedule _ _) as [[tr inner]|e'] eqn:ES; [|intros H; injection H as <- <-; auto].
  destruct (schedule_inner _ _ _ _ ES) as [b ->]. intros H. right.
  destruct (run_loop _ _ _ _ _) as [s out] eqn:EL.
  apply run_loop_inv in EL. cbn [r_f r_steps r_rep r_conv] in EL.
  destruct EL as (j & w & Hj & EW & HF & HS & H0 & HRep & HC).
  exists tr, (S b), j, w. split; [auto|]. split; [auto|]. split; [auto|].
  assert (Eg : advance f (w_k w) (w_count w) =
     with_k (advance f (w_k w) (w_count w)) (k_with_g (w_k w) (v_g (w_k w)))).
  { unfold k_with_g, with_k, advance, with_left; simpl. destruct (w_k w); reflexivity. }
  destruct out as [u|e'].
  - rewrite HF in H. simpl in H.
    destruct (revive_by_copy _ _ _ _ _ _) as [[[[n J] phi] g]|e'] eqn:ER.
    + destruct (r_rep s) as [rep|] eqn:ERep.
      * exfalso. injection H as _ H. unfold result_phases, mk_phases in H. simpl in H.
        rewrite Nat.eqb_refl in H. discriminate.
      * injection H as <- <-. split; [exists g; reflexivity|]. right; left. split; [|auto].
        destruct HC as [_ [[HN _]|(HN & _)]].
        -- destruct j as [|j]; [auto|]. destruct (HRep ltac:(lia)) as (rep & X & _). discriminate.
        -- destruct (HRep HN) as (rep & X & _). discriminate.
    + injection H as <- <-. split; [exists (v_g (w_k w)); exact Eg|]. auto.
  - injection H as <- <-. split; [exists (v_g (w_k w)); rewrite HF; exact Eg|].
    destruct HC as [(A & B & C)|[A B]]; auto.
Qed.

Lemma result_phases_ok nc np J phi ph :
  result_phases nc np J phi = Ok ph ->
  p_vol ph = map J (seq 0 np) /\ p_frac ph = map (fun p => map (fun c => phi c p) (seq 0 nc)) (seq 0 np) /\
  p_nc ph = nc.
Proof.
  unfold result_phases, mk_phases. simpl. rewrite Nat.eqb_refl. intros H; injection H as <-. auto.
Qed.

End Run.
Arguments rf_sched {G St ops f a t i f' ph tr inner j w rep n J phi g}.
Arguments rf_inner {G St ops f a t i f' ph tr inner j w rep n J phi g}.
Arguments rf_j {G St ops f a t i f' ph tr inner j w rep n J phi g}.
Arguments rf_steps {G St ops f a t i f' ph tr inner j w rep n J phi g}.
Arguments rf_rep {G St ops f a t i f' ph tr inner j w rep n J phi g}.
Arguments rf_copy {G St ops f a t i f' ph tr inner j w rep n J phi g}.
Arguments rf_ph {G St ops f a t i f' ph tr inner j w rep n J phi g}.
Arguments rf_f {G St ops f a t i f' ph tr inner j w rep n J phi g}.
Arguments rf_crit {G St ops f a t i f' ph tr inner j w rep n J phi g}.
Arguments rf_conv {G St ops f a t i f' ph tr inner j w rep n J phi g}.
