(** WitnessSetup.v -- concrete cases for PropertiesSetup.v and
    PropertiesRelabel.v; witnesses refuting the stronger claims of C22, C23. *)

From Coq Require Import String Reals Lra Lia List Bool Arith ZArith.
From Verif Require Import Base ModelCommon ModelParts ModelKernel ModelPhases ModelFinder ModelHistory
  ProofsKernel ProofsParts ProofsSteps ProofsCopy ProofsRun ProofsHistory Spec Examples
  PropertiesKernel WitnessKernel WitnessFinder PropertiesSetup ProofsRelabel ProofsTwin PropertiesRelabel.
Import ListNotations.
Open Scope R_scope.

(** Objects of the wrong size for a finder with two components and features. *)
Definition big_inter : compilable interaction :=
  {| a_params := ["additional_chis_shift"%string];
     a_impl := fun kw => Ok (fh_compile 3 ex_chi (kw_default kw "additional_chis_shift" 1)) |}.
Definition big_ent : compilable entropy := {| a_params := []; a_impl := fun _ => Ok (ig_compiled 3 ex_sizes) |}.
Definition big_ens : compilable ensemble := {| a_params := []; a_impl := fun _ => Ok (can_compiled 3 ex_means) |}.

(** A total-fraction constraint phi_0 + phi_1 = 1 with two keyword arguments. *)
Definition ex_lin (nf : nat) (kw : dict) : lin_par :=
  {| l_cons := 1; l_feat := nf; l_Cs := fun _ _ => 1; l_Ts := fun _ => 1;
     l_ratio := kw_default kw "constraint_acceptance_ratio" 1; l_elast := kw_default kw "constraint_elasticity" 1 |}.
Definition ex_cons (nf : nat) : compilable (cons_obj cstate) :=
  {| a_params := ["constraint_acceptance_ratio"; "constraint_elasticity"]%string;
     a_impl := fun kw => Ok (new_cons (local_class (ex_lin nf kw))) |}.
Definition ex_glob (nf : nat) : compilable (cons_obj cstate) :=
  {| a_params := ["constraint_acceptance_ratio"; "constraint_elasticity"]%string;
     a_impl := fun kw => Ok (new_cons (global_class (ex_lin nf kw))) |}.

Definition fex : finder nat cstate := ex_finder 2 (fun m => if Nat.eqb m 0 then 1/2 else 3/2) 0 2.

(* ------------------------------------------------------------------ *)
(** ** C21 *)

Example C21_case :
  create ops0 no0 big_inter ex_ent ex_ens CA_none (Some 2%nat) (ex_par 0 2) [] O = Err FeatureNumberError /\
  create ops0 no0 ex_inter ex_ent big_ens CA_none (Some 2%nat) (ex_par 0 2) [] O = Err ComponentNumberError /\
  create ops0 no0 ex_inter ex_ent ex_ens (CA_list [ex_cons 2; ex_cons 3]) (Some 2%nat) (ex_par 0 2) [] O
    = Err FeatureNumberError /\
  (exists f, create ops0 no0 ex_inter ex_ent ex_ens (CA_list [ex_cons 2; ex_glob 2]) (Some 2%nat) (ex_par 0 2) [] O
    = Ok f /\ compatible f) /\
  snd (set_entropy fex big_ent true []) = Err ComponentNumberError /\
  snd (set_interaction fex ex_inter true []) = Ok tt.
Proof.
  split; [reflexivity|]. split; [reflexivity|]. split; [reflexivity|]. split; [|split; reflexivity].
  destruct (C21_constructor ops0 no0 ex_inter ex_ent ex_ens (CA_list [ex_cons 2; ex_glob 2]) (Some 2%nat) (ex_par 0 2) [] O
    _ _ _ _ eq_refl eq_refl eq_refl eq_refl) as (_ & _ & _ & H).
  destruct H as (f & E & _ & _ & H); [reflexivity|reflexivity| |eauto].
  intros o [<-|[<-|[]]]; reflexivity.
Qed.

Example C21_compatible_case : compatible fex.
Proof. unfold compatible. simpl. repeat split; auto. intros o [<-|[]]. reflexivity. Qed.

(* ------------------------------------------------------------------ *)
(** ** C22: a rejected [set_*] has already stored the incompatible instance *)

Theorem C22_set_not_atomic_refuted :
  (exists f', set_interaction fex big_inter true [] = (f', Err FeatureNumberError) /\ f' <> fex /\ ~ compatible f') /\
  (exists f', set_entropy fex big_ent true [] = (f', Err ComponentNumberError) /\ f' <> fex /\ ~ compatible f') /\
  (exists f', set_ensemble fex big_ens true [] = (f', Err ComponentNumberError) /\ f' <> fex /\ ~ compatible f') /\
  (exists f', set_constraints no0 fex (CA_one (ex_cons 3)) true IA_none [] = (f', Err FeatureNumberError) /\
     f' <> fex /\ ~ compatible f').
Proof.
  assert (D : forall f', ~ compatible f' -> f' <> fex /\ ~ compatible f').
  { intros f' H. split; auto. intros ->. apply H. apply C21_compatible_case. }
  split; [|split; [|split]]; eexists; (split; [reflexivity|]); apply D.
  - intros (H & _). discriminate H.
  - intros (_ & H & _). discriminate H.
  - intros (_ & _ & _ & H & _). discriminate H.
  - intros (_ & _ & _ & _ & H). specialize (H _ (or_introl eq_refl)). discriminate H.
Qed.

Example C22_case :
  snd (reinitialize_from_omegas fex {| nd_shape := [2; 2]%nat; nd_at := fun _ => 1 |}) = Ok tt /\
  reinitialize_from_omegas fex {| nd_shape := [3; 2]%nat; nd_at := fun _ => 1 |} = (fex, Err ValueError) /\
  reinitialize_from_phis fex {| nd_shape := [2]%nat; nd_at := fun _ => 1 |} = (fex, Err ValueError).
Proof. repeat split. Qed.

Definition bad_cons : compilable (cons_obj cstate) := {| a_params := []; a_impl := fun _ => Err ValueError |}.
Example C22_prefix_case : exists f' o1 o2,
  set_constraints no0 fex (CA_list [ex_cons 2; ex_glob 2; bad_cons; ex_cons 2]) true IA_none [] = (f', Err ValueError) /\
  v_cons (f_k f') = [o1; o2].
Proof.
  destruct (C22_constraints_prefix no0 fex [ex_cons 2; ex_glob 2] bad_cons [ex_cons 2] true [] _ ValueError
    eq_refl ltac:(repeat (constructor; [reflexivity|]); constructor)) as (f' & H1 & H2).
  eexists _, _, _. split; [exact H1|exact H2].
Qed.

(* ------------------------------------------------------------------ *)
(** ** C23, C24 *)

(** Three different ways of setting two constraints. *)
Definition two_cons : cons_arg cstate := CA_list [ex_cons 2; ex_glob 2].

(** Installing "all given constraints" fails with one individual dict. *)
Theorem C23_all_installed_refuted : exists f',
  set_constraints no0 fex two_cons true (IA_list [[]]) [] = (f', Ok tt) /\ length (v_cons (f_k f')) = 1%nat.
Proof. eexists. split; reflexivity. Qed.

Example C23_case : exists f', set_constraints no0 fex two_cons true IA_none [] = (f', Ok tt) /\
  map o_class (v_cons (f_k f')) = [local_class (ex_lin 2 []); global_class (ex_lin 2 [])].
Proof. eexists. split; reflexivity. Qed.

(** individual beats call keyword beats constructor default; "unknown" is ignored *)
Example C24_case :
  let f := {| f_inter := f_inter fex; f_entropy := f_entropy fex; f_ensemble := f_ensemble fex; f_nc := 2; f_nf := 2; f_np := 2;
              f_par := f_par fex; f_kwargs := [("constraint_elasticity", 7); ("unknown", 9)]%string;
              f_k := f_k fex; f_left := 4; f_diag := None |} in
  exists f', set_constraints no0 f two_cons true
    (IA_list [[("constraint_acceptance_ratio", 3)]%string; [("constraint_elasticity", 5)]%string])
    [("constraint_acceptance_ratio", 2)]%string = (f', Ok tt) /\
  map o_class (v_cons (f_k f')) =
    [local_class {| l_cons := 1; l_feat := 2; l_Cs := fun _ _ => 1; l_Ts := fun _ => 1; l_ratio := 3; l_elast := 7 |};
     global_class {| l_cons := 1; l_feat := 2; l_Cs := fun _ _ => 1; l_Ts := fun _ => 1; l_ratio := 2; l_elast := 5 |}].
Proof. eexists. split; reflexivity. Qed.

(* ------------------------------------------------------------------ *)
(** ** C25 *)

(** Two finders of the same configuration with different pasts. *)
Definition past1 : finder nat cstate := ex_finder 2 (fun _ => 1) 0 2.
Definition past2 : finder nat cstate :=
  {| f_inter := fh_compile 2 ex_chi 0; f_entropy := ig_compiled 2 ex_sizes;
     f_ensemble := can_compiled 2 ex_means; f_nc := 2; f_nf := 2; f_np := 2;
     f_par := ex_par 0 2; f_kwargs := [];
     f_k := {| v_omegas := fun i m => 7; v_Js := fun m => if Nat.eqb m 0 then 2 else 0;
               v_phis_comp := fun _ _ => 5; v_phis_feat := fun _ _ => 4;
               v_cons := [new_cons (no_class 2)]; v_g := 0%nat |};
     f_left := (-1)%Z;
     f_diag := Some {| d_steps := 5; d_incomp := 1; d_omega := 1; d_Js := 1; d_cons := 1; d_left := 0 |} |}.

Lemma ex_classic np J thr b : classic 2 (kernel_of (ex_finder np J thr b)).
Proof.
  split; [|split].
  - eexists _, _. reflexivity.
  - left. split; [reflexivity|]. eexists. reflexivity.
  - eexists. left. reflexivity.
Qed.

Example C25_case l : Forall (good_call 2 2 2) l ->
  let a := {| nd_shape := [2; 2]%nat; nd_at := fun idx => match idx with [0; _]%nat => 1 | _ => 2 end |} in
  trace ops0 no0 (fst (reinitialize_from_phis past1 a)) l = trace ops0 no0 (fst (reinitialize_from_phis past2 a)) l.
Proof.
  intros HG a.
  apply (C25_same_afterwards ops0 no0 (fun n => eq_refl) past1 past2 (CReinitPhis a) l _ _ None); auto.
  - repeat split.
  - apply C25_builtin_regular. apply ex_classic.
  - constructor; constructor.
Qed.

(** A trace that is not trivial: run, tighten, run again. *)
Example C25_case_calls :
  Forall (good_call 2 2 2)
    [CRun (Some 10) None None; CSetInteraction ex_inter true []; CSetConstraints two_cons true IA_none [];
     CRun None (Some (1/1000)) (Some 3)].
Proof.
  assert (P : forall A (c : compilable A) kw x, compiled c kw = Ok x -> exists d, a_impl c d = Ok x).
  { intros A c kw x E. unfold compiled, py_call in E. destruct (forallb _ _); [eauto|discriminate]. }
  constructor; [exact I|]. constructor; [|constructor; [|constructor; [exact I|constructor]]].
  - intros kw i E. apply P in E. destruct E as (d & E). injection E as <-.
    apply fh_compile_rel; [apply perm_id|auto].
  - constructor; [|constructor; [|constructor]]; intros kw o E; apply P in E; destruct E as (d & E); injection E as <-;
      simpl; now constructor.
Qed.

(* ------------------------------------------------------------------ *)
(** ** C57, C58 *)

Definition swap2 (i : nat) : nat := if Nat.eqb i 0 then 1%nat else 0%nat.
Lemma swap2_perm : perm_on 2 swap2.
Proof.
  split.
  - intros i Hi. unfold swap2. destruct (Nat.eqb_spec i 0); lia.
  - intros i j Hi Hj. unfold swap2. destruct (Nat.eqb_spec i 0), (Nat.eqb_spec j 0); lia.
Qed.

Definition k_a : kstate nat cstate := ex_k 2 (fun m => if Nat.eqb m 0 then 1/2 else 3/2) 0.
Definition k_b : kstate nat cstate :=
  {| v_omegas := fun i m => if Nat.eqb i m then 0 else 1; v_Js := fun m => if Nat.eqb m 0 then 3/2 else 1/2;
     v_phis_comp := fun _ _ => 9; v_phis_feat := fun _ _ => 9; v_cons := [new_cons (no_class 2)]; v_g := 5%nat |}.

Example C57_case n :
  renamed 2 2 swap2 (fun i => i) k_a k_b /\ ~ renamed 2 2 (fun i => i) (fun i => i) k_a k_b /\
  renamed_outcome 2 2 2 swap2 (fun i => i) (fun i => i) n
    (steps ops0 (kernel_of fex) 0 n (start k_a)) (steps ops0 (kernel_of fex) 0 n (start k_b)).
Proof.
  assert (R : renamed 2 2 swap2 (fun i => i) k_a k_b).
  { split; [|split].
    - intros [|[|r]] [|[|m]] Hr Hm; try lia; reflexivity.
    - intros [|[|m]] Hm; try lia; reflexivity.
    - constructor; [|constructor]. constructor; intros ? **; reflexivity. }
  split; [exact R|]. split.
  - intros (_ & H & _). specialize (H 0%nat ltac:(lia)). simpl in H. lra.
  - apply (C57_compartments ops0 ops0 2 (kernel_of fex) swap2 0%Z n k_a k_b); [apply ex_classic|apply swap2_perm|lia|exact R].
Qed.

(** A mixture of sizes (1, 2), means (1/4, 3/4) and its mirror image. *)
Definition mix (sizes means : vec) : kernel :=
  {| q_inter := fh_compile 2 ex_chi 0; q_entropy := ig_compiled 2 sizes; q_ensemble := can_compiled 2 means;
     q_nf := 2; q_np := 2; q_acc_J := 1/100; q_ub := 1/1000; q_acc_w := 1/10; q_thr := 0; q_scaler := 1 |}.
Definition m_a : vec := fun i => if Nat.eqb i 0 then 1/4 else 3/4.
Definition m_b : vec := fun i => if Nat.eqb i 0 then 3/4 else 1/4.
Definition z_b : vec := fun i => if Nat.eqb i 0 then 2 else 1.

Example C58_case n :
  renamed_outcome 2 2 2 (fun i => i) swap2 swap2 n
    (steps ops0 (mix ex_sizes m_a) 0 n (start k_a))
    (steps ops0 (mix z_b m_b) 0 n (start {| v_omegas := fun i m => if Nat.eqb i m then 0 else 1; v_Js := v_Js k_a;
       v_phis_comp := fun _ _ => 9; v_phis_feat := fun _ _ => 9; v_cons := [new_cons (no_class 2)]; v_g := 5%nat |})).
Proof.
  apply C58_components; try reflexivity; try lia.
  - apply swap2_perm.
  - apply perm_id.
  - repeat split.
  - split; [|split].
    + eexists _, _, _. split; [reflexivity|]. split; [reflexivity|].
      intros [|[|i]] [|[|j]] Hi Hj; try lia; reflexivity.
    + eexists _, _. split; [reflexivity|]. split; [reflexivity|]. intros [|[|i]] Hi; try lia; reflexivity.
    + eexists _, _. split; [|left; split; reflexivity]. intros [|[|i]] Hi; try lia; reflexivity.
  - split; [|split].
    + intros [|[|r]] [|[|m]] Hr Hm; try lia; reflexivity.
    + intros m Hm. reflexivity.
    + constructor; [|constructor]. constructor; intros ? **; reflexivity.
Qed.
