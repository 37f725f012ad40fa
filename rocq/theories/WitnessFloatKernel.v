(** WitnessFloatKernel.v -- concrete binary64 runs for C83. *)

From Flocq Require Import Core BinarySingleNaN.
From Coq Require Import Reals ZArith List Bool Arith Lia.
From Verif Require Import Base ModelFloat ModelFloatKernel ProofsFloatKernel PropertiesFloatKernel.
Import ListNotations.

(** [np.exp] replaced by [1 + x], which agrees with it at 0 and at NaN; an x86
    processor converts NaN to the smallest integer. *)
Definition ex_pf : platform64 unit := {|
  pf_exp := add64 one64;
  pf_int := fun _ => (- 2 ^ 63)%Z;
  pf_uniform := fun g => (half64, g);
  pf_integers := fun g _ => (O, g)
|}.

(** two components and features with chi = 3, two compartments *)
Definition ex_q64 : kernel64 := {|
  z_nf := 2; z_np := 2; z_nc := 2;
  z_potential := fun feat r m => mul64 (ofZ64 3) (feat (1 - r) m);
  z_coef := fun _ _ => ofZ64 3;
  z_ivd := fun pot feat m =>
    mul64 half64 (add64 (mul64 (pot 0 m) (feat 0 m)) (mul64 (pot 1 m) (feat 1 m)));
  z_rho := fun i => i;
  z_sizes := fun _ => one64;
  z_feat := fun phis => phis;
  z_svd := fun phis m => minus64 (minus64 zero64 (phis 0 m)) (phis 1 m);
  z_ensemble := Canonical64 (fun _ => half64);
  z_acc_J := half64; z_ub := half64; z_acc_w := half64;
  z_thr := div64 one64 (ofZ64 10); z_scaler := one64
|}%nat.

Definition ex_s64 (w : f64) : state64 unit unit := {|
  x_omegas := fun r m => if (Nat.eqb r 1 && Nat.eqb m 1)%bool then w else zero64;
  x_Js := fun _ => one64; x_comp := fun _ _ => zero64; x_featv := fun _ _ => zero64;
  x_cons := []; x_g := tt
|}.
Definition ex_tol : f64 := div64 one64 (ofZ64 1000).

(** the homogeneous state: the run converges *)
Example case_C83_converged :
  exists o J phis, run64 ex_pf ex_q64 ex_tol 1 2 5 (ex_s64 zero64) = Ok (o, J, phis) /\
    converged64 ex_tol (oc_safe o) (oc_rep o) = true /\
    (forall i m, (i < 2)%nat -> (m < 2)%nat -> is_finite (phis i m) = true) /\
    exists (k1 : state64 unit unit) n, iterate64 ex_pf ex_q64 k1 = Ok (oc_k o, n, oc_rep o) /\
      (forall m, (m < 2)%nat -> is_finite (x_Js k1 m) = true) /\
      (forall r m, (r < 2)%nat -> (m < 2)%nat -> is_finite (x_omegas k1 r m) = true) /\
      (forall m, (m < 2)%nat -> mask64 (z_thr ex_q64) (x_Js k1 m) = one64 ->
         lt64 (z_thr ex_q64) (x_Js (oc_k o) m) = true).
Proof.
  assert (H : match run64 ex_pf ex_q64 ex_tol 1 2 5 (ex_s64 zero64) with
              | Ok (o, J, phis) => converged64 ex_tol (oc_safe o) (oc_rep o) | Err _ => false end = true)
    by (vm_compute; reflexivity).
  destruct (run64 ex_pf ex_q64 ex_tol 1 2 5 (ex_s64 zero64)) as [[[o J] phis]|] eqn:E; [|discriminate].
  exists o, J, phis. split; [reflexivity|split; [exact H|]].
  refine (C83_converged ex_pf ex_q64 ex_tol 1 2 5 (ex_s64 zero64) o J phis _ _ _ E H).
  - cbn. lia.
  - cbn. lia.
  - vm_compute. reflexivity.
Qed.

(** one component and one feature, two compartments *)
Definition ex_q1 : kernel64 := {|
  z_nf := 1; z_np := 2; z_nc := 1;
  z_potential := fun _ _ _ => zero64; z_coef := fun _ _ => one64; z_ivd := fun _ _ _ => zero64;
  z_rho := fun i => i; z_sizes := fun _ => one64;
  z_feat := fun phis => phis; z_svd := fun phis m => minus64 zero64 (phis 0 m);
  z_ensemble := Canonical64 (fun _ => one64);
  z_acc_J := half64; z_ub := half64; z_acc_w := half64;
  z_thr := div64 one64 (ofZ64 8); z_scaler := one64
|}%nat.
Definition ex_s1 : state64 unit unit := {|
  x_omegas := fun r m => if Nat.eqb m 1 then B754_nan else zero64;
  x_Js := fun _ => one64; x_comp := fun _ _ => zero64; x_featv := fun _ _ => zero64;
  x_cons := []; x_g := tt
|}.

(** one NaN among the fields: everything is NaN at the end, except the field
    error that the user reads in the diagnostics *)
Example case_C83_nan :
  exists o J phis, run64 ex_pf ex_q1 ex_tol 1 2 5 ex_s1 = Ok (o, J, phis) /\
    converged64 ex_tol (oc_safe o) (oc_rep o) = false /\
    (forall m, (m < 2)%nat -> J m = B754_nan) /\
    (forall i m, (m < 2)%nat -> phis i m = B754_nan) /\
    (forall r m, (r < 1)%nat -> (m < 2)%nat -> x_omegas (oc_k o) r m = B754_nan) /\
    r6_Js (oc_rep o) = B754_nan /\ r6_omega (oc_rep o) = zero64.
Proof.
  assert (H : match run64 ex_pf ex_q1 ex_tol 1 2 5 ex_s1 with
              | Ok _ => true | Err _ => false end = true) by (vm_compute; reflexivity).
  destruct (run64 ex_pf ex_q1 ex_tol 1 2 5 ex_s1) as [[[o J] phis]|] eqn:E; [|discriminate].
  assert (T : tainted ex_q1 ex_s1).
  { exists 1%nat. split; [cbn; lia|]. right. exists 0%nat. split; [cbn; lia|reflexivity]. }
  destruct (C83_nan ex_pf ex_q1 ex_tol 1 2 5 _ o J phis ltac:(cbn; lia) ltac:(lia) T E) as (A & B & C & D & F).
  destruct (C83_field_error_hides_nan ex_pf ex_q1 ex_tol 1 2 5 _ o J phis
    ltac:(cbn; lia) ltac:(lia) ltac:(lia) T E) as [_ W].
  exists o, J, phis. split; [reflexivity|]. repeat (split; [assumption || (apply F; lia)|]). exact W.
Qed.

(** finite errors of a run that does not converge: one step from fields 0 and 1/2 *)
Example case_C83_finite :
  exists o J phis, run64 ex_pf ex_q64 ex_tol 1 1 5 (ex_s64 half64) = Ok (o, J, phis) /\
    converged64 ex_tol (oc_safe o) (oc_rep o) = false /\
    is_finite (r6_Js (oc_rep o)) = true /\
    (forall i m, (i < 2)%nat -> (m < 2)%nat -> is_finite (phis i m) = true).
Proof.
  assert (H : match run64 ex_pf ex_q64 ex_tol 1 1 5 (ex_s64 half64) with
              | Ok (o, J, phis) => negb (converged64 ex_tol (oc_safe o) (oc_rep o)) && is_finite (r6_Js (oc_rep o))
              | Err _ => false end = true) by (vm_compute; reflexivity).
  destruct (run64 ex_pf ex_q64 ex_tol 1 1 5 (ex_s64 half64)) as [[[o J] phis]|] eqn:E; [|discriminate].
  apply andb_true_iff in H. destruct H as [H1 H2]. apply negb_true_iff in H1.
  exists o, J, phis. split; [reflexivity|split; [exact H1|split; [exact H2|]]].
  destruct (C83_finite ex_pf ex_q64 ex_tol 1 1 5 _ o J phis ltac:(cbn; lia) E) as [A B].
  apply A. apply B. exact H2.
Qed.
