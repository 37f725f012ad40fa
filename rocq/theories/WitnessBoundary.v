(** WitnessBoundary.v -- concrete instances of C99. *)

From Coq Require Import Reals Lra Lia List Bool Arith ZArith.
From Verif Require Import Base ModelCommon ModelFreeEnergy ProofsFreeEnergy PropertiesFreeEnergy PropertiesBoundary.
Import ListNotations.
Open Scope R_scope.

(** three components of size 2, chi = 3 between different ones; only the last
    two are present *)
Definition three : fe :=
  {| fe_nc := 3; fe_chis := fun i j => if Nat.eqb i j then 0 else 3; fe_sizes := fun _ => 2 |}.
Definition two_present : list R := [0; 1 / 2; 1 / 2].

Lemma three_ok : wf_fe three /\ big_sizes three /\ length two_present = fe_nc three /\ Forall (fun x => 0 <= x) two_present.
Proof.
  split; [split; cbn; intros; [lra|now rewrite Nat.eqb_sym]|]. split; [intros i Hi; cbn; lra|]. split; [reflexivity|].
  repeat constructor; lra.
Qed.

Lemma three_absent : absent two_present 0 = true /\ absent two_present 1 = false /\ absent two_present 2 = false.
Proof. unfold absent, two_present, entries. cbn [nth]. repeat (destruct (Req_EM_T _ _); try lra); auto. Qed.

Lemma three_minus : denotes (fe_nc three) (-3) 0.
Proof. split; cbn; [lia|right; reflexivity]. Qed.

Example C99_case : exists f g mu,
  free_energy_density three (One two_present) = Ok (Single (Fin f)) /\
  jacobian three (One two_present) None = Ok (Single [NInf; Fin (g 1%nat); Fin (g 2%nat)]) /\
  chemical_potentials three (One two_present) = Ok [[NInf; Fin (mu 1%nat); Fin (mu 2%nat)]].
Proof.
  destruct three_ok as (A & B & C & D). destruct three_absent as (E0 & E1 & E2).
  destruct (C99_values three two_present A B C D) as (f & g & mu & H1 & H2 & H3 & _).
  exists f, g, mu. rewrite H1, H2, H3. unfold listed. cbn [three fe_nc seq map]. rewrite E0, E1, E2. auto.
Qed.

(** relative to the absent component, index -3 from the end *)
Example C99_exchange_case :
  exchange_chemical_potentials three (One two_present) (-3) = Ok (Single [NaN; PInf; PInf]) /\
  pressure three (One two_present) (-3) = Ok [PInf] /\
  hessian three (One two_present) (Some (-3)%Z) = Ok (Single [[PInf; PInf]; [PInf; PInf]]).
Proof.
  destruct three_ok as (A & B & C & D). destruct three_absent as (E0 & E1 & E2).
  destruct (C99_exchange three two_present A B C D (-3) 0 three_minus) as (ex & p & H1 & _ & H3 & _ & H5).
  destruct (H5 E0) as (X0 & -> & X). destruct (C99_hessian three two_present A B C D (-3) 0 three_minus) as (H & Hr & _ & G2 & _ & G4).
  rewrite H1, H3, G2. unfold listed. cbn [three fe_nc seq map Nat.sub].
  rewrite !X by (cbn; lia). rewrite E0, E1, E2.
  assert (Y : forall a b, (a < 2)%nat -> (b < 2)%nat -> Hr a b = PInf).
  { intros a b Ha Hb. destruct (G4 a b Ha Hb) as [[_ Z]|[Z _]]; [exact Z|]. destruct Z. now left. }
  rewrite !Y by lia. auto.
Qed.

(** without the absent component the energy is the same *)
Example C99_leave_out_case : exists f,
  free_energy_density three (One two_present) = Ok (Single f) /\
  free_energy_density (leave_out 0 three) (One [1 / 2; 1 / 2]) = Ok (Single f).
Proof.
  destruct three_ok as (A & B & C & D). destruct three_absent as (E0 & _).
  destruct (C99_leave_out three two_present 0 A C D ltac:(cbn; lia) E0) as (f & _ & _ & H1 & H2 & _). exists f. auto.
Qed.

(** with a solver that answers nan the mixture is reported as stable *)
Example C99_stability_case : is_stable (fun m => map (fun _ => NaN) m) three (One two_present) true = Ok (Single true).
Proof.
  destruct three_ok as (A & B & C & D). destruct three_absent as (E0 & _).
  assert (D0 : denotes (fe_nc three) 0 0) by (split; cbn; [lia|left; reflexivity]).
  destruct (C99_hessian three two_present A B C D 0 0 D0) as (H & Hr & _ & G2 & _ & _).
  apply (C99_stability _ three (One two_present) true _ G2). apply Forall_forall. intros x Hx.
  apply in_map_iff in Hx. destruct Hx as (r & <- & _). now left.
Qed.
