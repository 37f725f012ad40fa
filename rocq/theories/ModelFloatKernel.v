(** ModelFloatKernel.v -- flory/mcmp/_finder_impl.py and the loop of
    finder.py:run in binary64 arithmetic (Flocq), operation by operation and in
    the order of the code, with NaN and infinities.

    Left open (arbitrary functions of binary64 arrays): the interaction, the
    map from components to features, the volume derivative of the entropy and
    the constraints.  They use matrix products, whose order of summation is that
    of the BLAS library; ModelFloatParts.v has those of the package.  [np.exp] is an arbitrary function as well. *)

From Flocq Require Import Core BinarySingleNaN.
From Coq Require Import Reals ZArith List Bool Arith.
From Verif Require Import Base ModelFloat.
Import ListNotations.

Definition vec64 := nat -> f64.
Definition mat64 := nat -> nat -> f64.

(** [A[i, m] = x] *)
Definition set64 (A : mat64) (i m : nat) (x : f64) : mat64 :=
  fun i' m' => if andb (Nat.eqb i' i) (Nat.eqb m' m) then x else A i' m'.

(** numpy's and numba's arithmetic on float64: round to nearest even *)
Definition add64 (x y : f64) : f64 := @Bplus prec64 emax64 prec64_ok prec64_lt mode_NE x y.
Definition mul64 (x y : f64) : f64 := @Bmult prec64 emax64 prec64_ok prec64_lt mode_NE x y.
Definition div64 (x y : f64) : f64 := @Bdiv prec64 emax64 prec64_ok prec64_lt mode_NE x y.
Definition opp64 (x : f64) : f64 := Bopp x.
Definition abs64 (x : f64) : f64 := Babs x.
Definition isnan64 (x : f64) : bool := is_nan x.
(** [x == 0.0]; false for NaN *)
Definition eq0_64 (x : f64) : bool := match x with B754_zero _ => true | _ => false end.
(** an integer converted to float64 *)
Definition ofZ64 (z : Z) : f64 :=
  @binary_normalize prec64 emax64 prec64_ok prec64_lt mode_NE z 0 false.
Definition half64 : f64 := div64 one64 (ofZ64 2).

(** [x.sum()] of a contiguous array: numba adds the entries one after the other *)
Definition sum64 (n : nat) (v : vec64) : f64 := for_ n (fun i acc => add64 acc (v i)) zero64.

(** [x.max()] and [x.min()] of a float array in numba: the first NaN is returned.
    The empty array is an error in numpy and outside the model. *)
Definition amax64 (n : nat) (v : vec64) : f64 :=
  for_ (n - 1) (fun i acc =>
    if isnan64 acc then acc else if isnan64 (v (S i)) then v (S i)
    else if lt64 acc (v (S i)) then v (S i) else acc) (v O).
Definition amin64 (n : nat) (v : vec64) : f64 :=
  for_ (n - 1) (fun i acc =>
    if isnan64 acc then acc else if isnan64 (v (S i)) then v (S i)
    else if lt64 (v (S i)) acc then v (S i) else acc) (v O).

(** the builtin [max(a, b)] on two scalars: [b] only when [b > a] *)
Definition pymax64 (a b : f64) : f64 := if lt64 a b then b else a.

(** a scalar division in compiled code raises when the divisor is zero *)
Definition sdiv64 (x y : f64) : res f64 :=
  if eq0_64 y then Err ZeroDivisionError else Ok (div64 x y).

(** count_valid_compartments, _finder_impl.py:46 *)
Definition count_valid64 (np : nat) (Js : vec64) (thr : f64) : nat :=
  ncount np (fun m => lt64 thr (Js m)).

(** What the kernel asks of the processor and of numpy besides arithmetic. *)
Record platform64 (G : Type) := {
  pf_exp : f64 -> f64;                       (* np.exp *)
  pf_int : f64 -> Z;                         (* int(x) for x infinite or NaN *)
  pf_uniform : G -> f64 * G;                 (* rng.uniform(-1, 1) *)
  pf_integers : G -> nat -> nat * G          (* rng.integers(0, k) *)
}.
Arguments pf_exp {G}. Arguments pf_int {G}. Arguments pf_uniform {G}. Arguments pf_integers {G}.

Section WithPlatform.
Context {G St : Type} (pf : platform64 G).

(** [int(x)] *)
Definition int64 (x : f64) : Z := if is_finite x then Btrunc x else pf_int pf x.

(* ------------------------------------------------------------------ *)
(** * Revival *)

(** _finder_impl.py:73-133 [revive_compartments_by_random] *)
Definition center64 (np : nat) (t : mat64) (i : nat) : f64 :=
  mul64 (add64 (amax64 np (t i)) (amin64 np (t i))) half64.
Definition width64 (np : nat) (t : mat64) (i : nat) : f64 :=
  mul64 (minus64 (amax64 np (t i)) (amin64 np (t i))) half64.

Definition redraw64 (nf np : nat) (t0 : mat64) (scaler : f64) (m : nat) (s : mat64 * G) : mat64 * G :=
  for_ nf (fun i '(t, g) =>
     let '(u, g') := pf_uniform pf g in
     (set64 t i m (add64 (center64 np t0 i) (mul64 (mul64 (width64 np t0 i) scaler) u)), g')) s.

Definition revive_random64 (nf np : nat) (Js : vec64) (t : mat64) (thr : f64) (g : G) (scaler : f64)
    : nat * vec64 * mat64 * G :=
  for_ np (fun m '(count, J, t', g) =>
     if dead64 thr (J m) then
       let '(t'', g') := redraw64 nf np t scaler m (t', g) in
       (S count, upd J m one64, t'', g')
     else (count, J, t', g))
    (O, Js, t, g).

(** _finder_impl.py:137-206 [revive_compartments_by_copy], as in ModelKernel.v *)
Record copy_state64 := {
  y6_Js : vec64; y6_t : mat64; y6_living : nat -> option nat; y6_lc : nat; y6_g : G
}.

Definition two_thr (thr : f64) : f64 := mul64 (ofZ64 2) thr.

Definition classify64 (np : nat) (Js : vec64) (thr : f64)
    : (nat -> option nat) * nat * list nat :=
  for_ np (fun m '(living, lc, dead) =>
     if lt64 (two_thr thr) (Js m) then (upd living lc (Some m), S lc, dead)
     else if dead64 thr (Js m) then (living, lc, dead ++ [m])
     else (living, lc, dead))
    (fun _ => None, O, []).

Fixpoint find_donor64 (Js : vec64) (thr : f64) (lc : nat) (living : nat -> option nat) (g : G)
    : res (nat * (nat -> option nat) * nat * G) :=
  match lc with
  | O => Err DonorsExhausted
  | S k =>
      let '(pos, g') := pf_integers pf g (S k) in
      match living pos with
      | None => Err IndexError
      | Some ref =>
          if lt64 (two_thr thr) (Js ref) then Ok (ref, living, S k, g')
          else find_donor64 Js thr k (upd (upd living pos (living k)) k None) g'
      end
  end.

Definition copy_one64 (np : nat) (thr : f64) (d : nat) (s : copy_state64) : res copy_state64 :=
  let* (ref, living, lc, g') := find_donor64 (y6_Js s) thr (y6_lc s) (y6_living s) (y6_g s) in
  if negb (Nat.ltb lc np) then Err IndexError else
  let new_J := mul64 half64 (y6_Js s ref) in
  Ok {| y6_Js := upd (upd (y6_Js s) d new_J) ref new_J;
        y6_t := fun i m => if Nat.eqb m d then y6_t s i ref else y6_t s i m;
        y6_living := upd living lc (Some d);
        y6_lc := S lc;
        y6_g := g' |}.

Fixpoint copy_all64 (np : nat) (thr : f64) (dead : list nat) (s : copy_state64) : res copy_state64 :=
  match dead with
  | [] => Ok s
  | d :: dead' => let* s' := copy_one64 np thr d s in copy_all64 np thr dead' s'
  end.

Definition revive_copy64 (np : nat) (Js : vec64) (t : mat64) (thr : f64) (g : G)
    : res (vec64 * mat64 * G) :=
  let '(living, lc, dead) := classify64 np Js thr in
  let* s := copy_all64 np thr dead
    {| y6_Js := Js; y6_t := t; y6_living := living; y6_lc := lc; y6_g := g |} in
  Ok (y6_Js s, y6_t s, y6_g s).

(* ------------------------------------------------------------------ *)
(** * One iteration *)

(** ensemble/canonical.py:54-63 and ensemble/grandcanonical.py:54-64: the factor
    of component [i], given [Q_i] *)
Inductive ensemble64 :=
| Canonical64 (phi_means : vec64)
| GrandCanonical64 (scaled_activity : vec64).

Definition prefactor64 (e : ensemble64) (i : nat) (Q : f64) : res f64 :=
  match e with
  | Canonical64 means => sdiv64 (means i) Q
  | GrandCanonical64 act => Ok (act i)
  end.

(** a compiled constraint, with its internal state of type [St] *)
Record cons64 := {
  c6_prepare : mat64 -> vec64 -> vec64 -> St -> St;
  c6_potential : St -> mat64;
  c6_vd : St -> vec64;
  c6_evolve : f64 -> vec64 -> St -> St * f64
}.

Record kernel64 := {
  z_nf : nat; z_np : nat; z_nc : nat;
  z_potential : mat64 -> mat64;              (* interaction.potential *)
  z_coef : mat64 -> vec64;                   (* interaction.incomp_coef *)
  z_ivd : mat64 -> mat64 -> vec64;           (* interaction.volume_derivative *)
  z_rho : nat -> nat;                        (* the feature of a component *)
  z_sizes : vec64;
  z_feat : mat64 -> mat64;                   (* entropy.comp_to_feat *)
  z_svd : mat64 -> vec64;                    (* entropy.volume_derivative *)
  z_ensemble : ensemble64;
  z_acc_J : f64; z_ub : f64; z_acc_w : f64; z_thr : f64; z_scaler : f64
}.

Record state64 := {
  x_omegas : mat64; x_Js : vec64; x_comp : mat64; x_featv : mat64;
  x_cons : list (cons64 * St); x_g : G
}.

Record report64 := { r6_incomp : f64; r6_omega : f64; r6_Js : f64; r6_cons : f64 }.

(** entropy/ideal_gas.py:63-71 and ideal_gas_polydispersed.py: the Boltzmann
    factors and [Qs] *)
Definition boltz64 (q : kernel64) (w : mat64) : mat64 :=
  fun i m => pf_exp pf (mul64 (opp64 (w (z_rho q i) m)) (z_sizes q i)).
Definition Qs64 (q : kernel64) (p : mat64) (Js : vec64) : res vec64 :=
  let total := sum64 (z_np q) Js in
  if andb (Nat.ltb 0 (z_nc q)) (eq0_64 total) then Err ZeroDivisionError
  else Ok (fun i => div64 (sum64 (z_np q) (fun m => mul64 (p i m) (Js m))) total).

(** [for itr_comp in range(num_comp): factor = …]: the factors in turn *)
Fixpoint prefactors64 (e : ensemble64) (Qs : vec64) (n : nat) : res vec64 :=
  match n with
  | O => Ok (fun _ => zero64)
  | S k => let* f := prefactors64 e Qs k in
           let* x := prefactor64 e k (Qs k) in Ok (upd f k x)
  end.

Definition incomp64 (nc : nat) (phis : mat64) (masks : vec64) : vec64 :=
  fun m => mul64 (for_ nc (fun i acc => add64 acc (phis i m)) (opp64 one64)) (masks m).

Definition prepare64 (feat : mat64) (Js masks : vec64) (cs : list (cons64 * St)) : list (cons64 * St) :=
  map (fun o => (fst o, c6_prepare (fst o) feat Js masks (snd o))) cs.
Definition pot64 (o : cons64 * St) : mat64 := c6_potential (fst o) (snd o).
Definition vd64 (o : cons64 * St) : vec64 := c6_vd (fst o) (snd o).

(** [for cons in constraints: x = body(cons, x)] *)
Definition each {A} (cs : list (cons64 * St)) (body : cons64 * St -> A -> A) (x : A) : A :=
  fold_left (fun acc o => body o acc) cs x.

(** lines 359-368 *)
Definition xi64 (nf : nat) (coef incomp masks : vec64) (w pot : mat64) (cs : list (cons64 * St)) : vec64 :=
  fun m =>
    let x0 := mul64 (coef m) (incomp m) in
    let x1 := for_ nf (fun r acc => add64 acc (minus64 (w r m) (pot r m))) x0 in
    let x2 := each cs (fun o acc => for_ nf (fun r a => minus64 a (pot64 o r m)) acc) x1 in
    div64 (mul64 x2 (masks m)) (ofZ64 (Z.of_nat nf)).

(** lines 378 and 380 *)
Definition otemp64 (pot : mat64) (cs : list (cons64 * St)) (xi : vec64) : mat64 :=
  fun r m => add64 (each cs (fun o acc => add64 acc (pot64 o r m)) (pot r m)) (xi m).

(** lines 371-381 *)
Definition energy64 (nf : nat) (ivd svd xi incomp : vec64) (cs : list (cons64 * St)) (otemp feat : mat64)
    : vec64 :=
  fun m =>
    let e0 := add64 (add64 (ivd m) (svd m)) (mul64 (xi m) (incomp m)) in
    let e1 := each cs (fun o acc => add64 acc (vd64 o m)) e0 in
    for_ nf (fun r acc => minus64 acc (mul64 (otemp r m) (feat r m))) e1.

(** lines 399-403 *)
Definition omega_error64 (nf np : nat) (diff : mat64) : f64 :=
  for_ nf (fun r acc => pymax64 acc (amax64 np (diff r))) zero64.

(** lines 409-414 *)
Fixpoint evolve64 (step : f64) (masks : vec64) (worst : f64) (cs : list (cons64 * St))
    : list (cons64 * St) * f64 :=
  match cs with
  | [] => ([], worst)
  | o :: cs' =>
      let '(s, x) := c6_evolve (fst o) step masks (snd o) in
      let '(cs'', w) := evolve64 step masks (pymax64 worst x) cs' in
      ((fst o, s) :: cs'', w)
  end.

(** _finder_impl.py:339-414 *)
Definition iterate64 (q : kernel64) (k : state64) : res (state64 * Z * report64) :=
  let nf := z_nf q in let np := z_np q in let nc := z_nc q in
  let masks := fun m => mask64 (z_thr q) (x_Js k m) in                   (* 340 *)
  let n_valid := int64 (sum64 np masks) in                               (* 341 *)
  let Js := fun m => mul64 (x_Js k m) (masks m) in                       (* 342 *)
  let p := boltz64 q (x_omegas k) in
  let* Qs := Qs64 q p Js in                                              (* 345 *)
  let* f := prefactors64 (z_ensemble q) Qs nc in
  let phis := fun i m => mul64 (mul64 (f i) (p i m)) (masks m) in
  let incomp := incomp64 nc phis masks in                                (* 346 *)
  let feat := z_feat q phis in                                           (* 347 *)
  let max_abs_incomp := amax64 np (fun m => abs64 (incomp m)) in         (* 348 *)
  let cs := prepare64 feat Js masks (x_cons k) in                        (* 351-353 *)
  let pot := z_potential q feat in                                       (* 356 *)
  let xi := xi64 nf (z_coef q feat) incomp masks (x_omegas k) pot cs in  (* 359-368 *)
  let otemp := otemp64 pot cs xi in                                      (* 378, 380 *)
  let le := energy64 nf (z_ivd q pot feat) (z_svd q phis) xi incomp cs otemp feat in (* 371-381 *)
  if Z.eqb n_valid 0 then Err ZeroDivisionError else
  let n := ofZ64 n_valid in
  let le_mean := div64 (sum64 np (fun m => mul64 (le m) (Js m))) n in    (* 384 *)
  let Js_diff := fun m => mul64 (minus64 le_mean (le m)) (masks m) in    (* 385 *)
  let max_abs_Js_diff := amax64 np (fun m => abs64 (Js_diff m)) in       (* 386 *)
  let change := pymax64 (mul64 max_abs_Js_diff (z_acc_J q)) (z_ub q) in  (* 389 *)
  let* factor := sdiv64 (z_ub q) change in                               (* 390 *)
  let Js1 := fun m =>
    mul64 (add64 (Js m) (mul64 (mul64 factor (z_acc_J q)) (Js_diff m))) (masks m) in (* 393-394 *)
  let shift := minus64 one64 (div64 (sum64 np Js1) n) in                 (* 395 *)
  let Js2 := fun m => mul64 (add64 (Js1 m) shift) (masks m) in           (* 395-396 *)
  let diff := fun r m => mul64 (minus64 (otemp r m) (x_omegas k r m)) (masks m) in (* 401-402 *)
  let omegas' := fun r m =>
    mul64 (add64 (x_omegas k r m) (mul64 (mul64 factor (z_acc_w q)) (diff r m))) (masks m) in
                                                                         (* 404-407 *)
  let '(cs', residue) := evolve64 (mul64 factor (z_acc_w q)) masks zero64 cs in (* 409-414 *)
  Ok ({| x_omegas := omegas'; x_Js := Js2; x_comp := phis; x_featv := feat;
         x_cons := cs'; x_g := x_g k |},
      n_valid,
      {| r6_incomp := max_abs_incomp; r6_omega := omega_error64 nf np diff;
         r6_Js := max_abs_Js_diff; r6_cons := residue |}).

(** _finder_impl.py:331-337 *)
Definition maybe_revive64 (q : kernel64) (tries : Z) (count : nat) (k : state64) : nat * state64 :=
  if Z.ltb (Z.of_nat count) tries then
    if Nat.eqb (count_valid64 (z_np q) (x_Js k) (z_thr q)) (z_np q) then (count, k)
    else
      let '(c, J, t, g) :=
        revive_random64 (z_nf q) (z_np q) (x_Js k) (x_omegas k) (z_thr q) (x_g k) (z_scaler q) in
      ((count + c)%nat,
       {| x_omegas := t; x_Js := J; x_comp := x_comp k; x_featv := x_featv k;
          x_cons := x_cons k; x_g := g |})
  else (count, k).

Record mstate64 := {
  u_k : state64; u_count : nat; u_valid : Z; u_rep : option report64
}.

Definition one_step64 (q : kernel64) (tries : Z) (w : mstate64) : res mstate64 :=
  let '(count, k) := maybe_revive64 q tries (u_count w) (u_k w) in
  let* (k', n_valid, rep) := iterate64 q k in
  Ok {| u_k := k'; u_count := count; u_valid := n_valid; u_rep := Some rep |}.

Fixpoint steps64 (q : kernel64) (tries : Z) (n : nat) (w : mstate64) : res mstate64 :=
  match n with
  | O => Ok w
  | S n' => let* w' := steps64 q tries n' w in one_step64 q tries w'
  end.

(** _finder_impl.py:210-426 *)
Definition metastep64 (q : kernel64) (inner : nat) (tries : Z) (k : state64)
    : res (state64 * report64 * nat * bool) :=
  let* w := steps64 q tries inner {| u_k := k; u_count := O; u_valid := 0%Z; u_rep := None |} in
  match u_rep w with
  | None => Err UnboundLocalError
  | Some rep =>
      Ok (u_k w, rep, u_count w,
          Z.eqb (u_valid w) (Z.of_nat (count_valid64 (z_np q) (x_Js (u_k w)) (z_thr q))))
  end.

(* ------------------------------------------------------------------ *)
(** * The loop of [run] *)

(** finder.py:629-636 *)
Definition converged64 (tol : f64) (safe : bool) (r : report64) : bool :=
  safe && lt64 (r6_incomp r) tol && lt64 (r6_omega r) tol && lt64 (r6_Js r) tol
  && lt64 (r6_cons r) tol.

Record outcome64 := { oc_k : state64; oc_left : Z; oc_rep : report64; oc_safe : bool }.

(** finder.py:586-645: at most [tr] metasteps; [last] is [None] before the first *)
Fixpoint loop64 (q : kernel64) (tol : f64) (inner tr : nat) (k : state64) (left : Z)
    (last : option outcome64) : res outcome64 :=
  match tr with
  | O => match last with None => Err UnboundLocalError | Some o => Ok o end
  | S tr' =>
      let* (k', rep, c, safe) := metastep64 q inner left k in
      let o := {| oc_k := k'; oc_left := (left - Z.of_nat c)%Z; oc_rep := rep; oc_safe := safe |} in
      if converged64 tol safe rep then Ok o
      else loop64 q tol inner tr' k' (left - Z.of_nat c)%Z (Some o)
  end.

(** finder.py:586-660: the loop and the final revival by copying; returns the
    outcome of the loop and the volumes and fractions passed to [Phases] *)
Definition run64 (q : kernel64) (tol : f64) (inner tr : nat) (left : Z) (k : state64)
    : res (outcome64 * vec64 * mat64) :=
  let* o := loop64 q tol inner tr k left None in
  let* (J, phis, _) :=
    revive_copy64 (z_np q) (x_Js (oc_k o)) (x_comp (oc_k o)) (z_thr q) (x_g (oc_k o)) in
  Ok (o, J, phis).

End WithPlatform.
Arguments cons64 St : clear implicits.
Arguments state64 G St : clear implicits.
Arguments mstate64 G St : clear implicits.
Arguments outcome64 G St : clear implicits.
