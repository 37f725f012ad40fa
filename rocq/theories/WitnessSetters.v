(** WitnessSetters.v -- concrete cases for PropertiesSetters.v. *)

From Coq Require Import String Reals Lra Lia List Bool Arith ZArith.
From Verif Require Import Base ModelCommon ModelParts ModelKernel ModelPhases ModelFinder ModelHistory
  ProofsKernel ProofsParts ProofsSteps ProofsCopy ProofsRun ProofsHistory Spec Examples
  PropertiesKernel WitnessKernel WitnessFinder PropertiesSetup WitnessSetup PropertiesSetters.
Import ListNotations.
Open Scope R_scope.

(** The constructor with [num_part = 0]: 16 compartments for two components. *)
Example case_C84_constructor : exists f,
  create ops0 no0 ex_inter ex_ent ex_ens (CA_one (ex_cons 2)) (Some O) (ex_par 0 2)
    [("constraint_elasticity", 7)]%string O = Ok f /\
  f_np f = 16%nat /\ f_left f = 32%Z /\ (forall m, v_Js (f_k f) m = 1) /\
  v_g (f_k f) = after_draws ops0 (m_random_std (ex_par 0 2)) O 32 /\
  exists o', v_cons (f_k f) = [o'] /\ o_class o' = local_class (ex_lin 2 [("constraint_elasticity", 7)]%string).
Proof.
  destruct (create ops0 no0 ex_inter ex_ent ex_ens (CA_one (ex_cons 2)) (Some O) (ex_par 0 2)
    [("constraint_elasticity", 7)]%string O) as [f|] eqn:E; [|discriminate].
  exists f. split; [reflexivity|].
  destruct (C84_constructor ops0 no0 _ _ _ _ _ _ _ _ _ E)
    as (Ei & Es & En & Nc & Nf & _ & Np & _ & _ & _ & L & J & Eg & _ & cs & Ec & F).
  injection Es as Es. rewrite <- Es in Nc, Nf. cbn in Nc, Nf.
  specialize (Np (or_intror eq_refl)). rewrite Nc in Np. cbn in Np.
  rewrite Np in L. rewrite Nf, Np in Eg. cbn in L.
  split; [exact Np|split; [exact L|split; [exact J|split; [exact Eg|]]]].
  rewrite Nf in Ec. injection Ec as <-. inversion F as [|? o' ? l I F' E1 E2]; subst. inversion F'; subst.
  exists o'. split; [reflexivity|]. destruct I as [-> _]. reflexivity.
Qed.

(** A rejected entropy with [reset] leaves a spent budget as it is, an accepted
    one refills it; nothing else moves. *)
Definition spent : finder nat cstate := with_left fex (-1).
Example case_C84_budget :
  f_left (fst (exec ops0 no0 spent (CSetEntropy ex_ent true []))) = 4%Z /\
  f_left (fst (exec ops0 no0 spent (CSetEntropy ex_ent false []))) = (-1)%Z /\
  f_left (fst (exec ops0 no0 spent (CSetEntropy big_ent true []))) = (-1)%Z /\
  f_inter (fst (exec ops0 no0 spent (CSetEntropy ex_ent true []))) = f_inter spent /\
  v_Js (f_k (fst (exec ops0 no0 spent (CSetEntropy ex_ent true [])))) = v_Js (f_k spent).
Proof.
  split; [|split; [|split]].
  - apply (C84_budget ops0 no0 spent (CSetEntropy ex_ent true []) _ None); reflexivity.
  - apply (C84_budget ops0 no0 spent (CSetEntropy ex_ent false []) _ None); reflexivity.
  - apply (C84_budget ops0 no0 spent (CSetEntropy big_ent true []) _ (Some ComponentNumberError)); reflexivity.
  - pose proof (C84_frame ops0 no0 spent (CSetEntropy ex_ent true []) _ None eq_refl) as H. split; apply H; reflexivity.
Qed.

(** One constraint with its own keyword arguments. *)
Example case_C23_single_individual : exists f' o',
  set_constraints no0 fex (CA_one (ex_cons 2)) true (IA_dict [("constraint_elasticity", 5)]%string)
    [("constraint_elasticity", 2); ("constraint_acceptance_ratio", 3)]%string = (f', Ok tt) /\
  v_cons (f_k f') = [o'] /\ l_elast (ex_lin 2 [("constraint_elasticity", 5)]%string) = 5 /\
  o_class o' = local_class {| l_cons := 1; l_feat := 2; l_Cs := fun _ _ => 1; l_Ts := fun _ => 1; l_ratio := 3; l_elast := 5 |}.
Proof. eexists _, _. split; [reflexivity|]. split; [reflexivity|]. split; reflexivity. Qed.
