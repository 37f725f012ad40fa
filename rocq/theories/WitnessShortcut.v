(** WitnessShortcut.v -- a concrete call of find_coexisting_phases (C56). *)

From Coq Require Import String Reals Lra Lia List Bool Arith ZArith.
From Verif Require Import Base ModelCommon ModelParts ModelKernel ModelPhases ModelFinder ProofsKernel Examples
  WitnessKernel WitnessFinder PropertiesPhases WitnessPhases ModelShortcut PropertiesShortcut.
Import ListNotations.
Open Scope R_scope.

(** an asymmetric interaction matrix, mean fractions 1/4 and 3/4, sizes 1 *)
Definition chis2 : nd :=
  {| nd_shape := [2; 2]%nat;
     nd_at := fun idx => match idx with [O; S O] => 5 | [S O; O] => 3 | _ => 0 end |}.
Definition means2 : nd :=
  {| nd_shape := [2]%nat; nd_at := fun idx => match idx with [O] => 1 / 4 | _ => 3 / 4 end |}.

Example C56_case : exists r d,
  find_coexisting_phases ops0 no0 fcluster3 argsort0 2 chis2 (Some means2) None CA_none (Some 3%nat) (ex_par 0 2) [] O
    = Ok (r, Some d) /\
  total_volume r = 1 /\ (1 <= num_phases r <= 3)%nat /\ sorted_by_top r /\
  (forall row, In row (p_frac r) -> Rabs (lsum row (fun x => x) - 1) <= d_incomp d).
Proof.
  destruct (C56_succeeds ops0 no0 fcluster3 argsort0 2 chis2 (Some means2) None (Some 3%nat) (ex_par 0 2) [] O
    _ _ _ ops0_contract fcluster3_spec argsort0_spec (fun n => eq_refl) eq_refl eq_refl eq_refl) as (r & d & E);
    cbn [ex_par m_thr m_criterion m_ub m_max_steps m_interval]; try lra; try reflexivity.
  exists r, d. split; [exact E|].
  destruct (C56_pipeline ops0 no0 fcluster3 argsort0 2 chis2 (Some means2) None CA_none (Some 3%nat) (ex_par 0 2) [] O
    r (Some d) ops0_contract fcluster3_spec argsort0_spec) as (f & f' & raw & d' & Ef & _ & _ & Ei & T & _ & _ & N & _ & Top & _ & S & _);
    [cbn; lra|exact E|].
  injection Ei as <-. split; [exact T|]. split; [|split; [exact Top|exact S]].
  destruct (C56_finder ops0 no0 2 chis2 (Some means2) None CA_none (Some 3%nat) (ex_par 0 2) [] O f Ef eq_refl)
    as (_ & _ & _ & _ & Np & _).
  - intros s Hs. now injection Hs as <-.
  - discriminate.
  - rewrite Np in N. exact N.
Qed.
