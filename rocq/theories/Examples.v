(** Examples.v -- concrete configurations used to show that the hypotheses of
    the theorems can be met by non-trivial data. *)

From Coq Require Import String Reals Lra Lia List Bool Arith ZArith.
From Verif Require Import Base ModelCommon ModelParts ModelKernel ModelPhases ModelFinder
  ProofsKernel ProofsParts ProofsSteps ProofsCopy ProofsRun Spec.
Import ListNotations.
Open Scope R_scope.

(** A generator that counts its draws and always returns the same values. *)
Definition ops0 : rng_ops nat :=
  {| g_uniform := fun g => (1/2, S g);
     g_integers := fun g k => (O, S g);
     g_normal := fun g mean std => (mean + std, S g);
     g_beta := fun g b => (1/2, S g) |}.

Lemma ops0_contract : rng_contract ops0.
Proof. constructor; simpl; intros; try lra. lia. Qed.

(** Two components of sizes 1 and 2, chi = 3, two compartments. *)
Definition ex_chi : mat := fun i j => if Nat.eqb i j then 0 else 3.
Definition ex_sizes : vec := fun i => if Nat.eqb i 0 then 1 else 2.
Definition ex_means : vec := fun _ => 1/2.

Definition ex_par (thr : R) (budget : Z) : params :=
  {| m_max_steps := 10; m_criterion := "standard"; m_tolerance := 1/10; m_interval := 5;
     m_random_std := 1; m_acc_J := 1/5000; m_acc_w := 1/500; m_ub := 1/1000; m_thr := thr;
     m_scaler := 1; m_max_revive := budget |}.

Definition ex_k (np : nat) (J : vec) (g : nat) : kstate nat cstate :=
  {| v_omegas := fun i m => if Nat.eqb i m then 1 else 0; v_Js := J;
     v_phis_comp := fun _ _ => 0; v_phis_feat := fun _ _ => 0;
     v_cons := [new_cons (no_class 2)]; v_g := g |}.

Definition ex_finder (np : nat) (J : vec) (thr : R) (budget : Z) : finder nat cstate :=
  {| f_inter := fh_compile 2 ex_chi 0; f_entropy := ig_compiled 2 ex_sizes;
     f_ensemble := can_compiled 2 ex_means; f_nc := 2; f_nf := 2; f_np := np;
     f_par := ex_par thr budget; f_kwargs := [];
     f_k := ex_k np J 0; f_left := (budget * Z.of_nat np)%Z; f_diag := None |}.

Lemma ex_total np J thr budget : parts_total (kernel_of (ex_finder np J thr budget)).
Proof. eapply builtin_total_ig_can; reflexivity. Qed.

(** One iteration of the example succeeds whenever a compartment is alive. *)
Lemma ex_iterate np J thr budget :
  0 <= thr -> (exists m, (m < np)%nat /\ thr < J m) ->
  exists k' nv rep, iterate (kernel_of (ex_finder np J thr budget)) (ex_k np J 0) = Ok (k', nv, rep).
Proof.
  intros Ht HA. apply iterate_total; auto.
  - apply ex_total.
  - simpl; lra.
Qed.

Lemma ex_fsteps np J thr budget n :
  0 <= thr < 1 -> (exists m, (m < np)%nat /\ thr < J m) ->
  exists w, fsteps ops0 (ex_finder np J thr budget) n = Ok w /\
            exists m, (m < np)%nat /\ thr < v_Js (w_k w) m.
Proof.
  intros Ht HA.
  destruct (steps_total ops0 (kernel_of (ex_finder np J thr budget)) (budget * Z.of_nat np) n
              (start (ex_k np J 0))) as (w & E & H); auto.
  - apply ex_total.
  - simpl; lra.
  - exists w. split; auto.
Qed.
