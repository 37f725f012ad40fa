(** ModelKernel.v -- flory/mcmp/_finder_impl.py: masks, counting, revival and
    the self-consistent iteration. *)

From Coq Require Import Reals List Bool Arith ZArith.
From Verif Require Import Base ModelParts.
Import ListNotations.
Open Scope R_scope.

(** The random generator is an arbitrary deterministic state machine with
    state type [G] (numpy.random.Generator is such a machine). *)
Record rng_ops (G : Type) := {
  g_uniform : G -> R * G;              (* rng.uniform(-1, 1) *)
  g_integers : G -> nat -> nat * G;    (* rng.integers(0, k) *)
  g_normal : G -> R -> R -> R * G;     (* rng.normal(mean, std) *)
  g_beta : G -> nat -> R * G           (* rng.beta(1, b) *)
}.
Arguments g_uniform {G}. Arguments g_integers {G}. Arguments g_normal {G}. Arguments g_beta {G}.

(** What numpy guarantees about the draws. *)
Record rng_contract {G} (o : rng_ops G) : Prop := {
  uniform_range : forall g, -1 <= fst (g_uniform o g) < 1;
  integers_range : forall g k, (0 < k)%nat -> (fst (g_integers o g k) < k)%nat;
  beta_range : forall g b, 0 <= fst (g_beta o g b) <= 1
}.

(* ------------------------------------------------------------------ *)
(** * Masks *)

(** _finder_impl.py:30-46 [count_valid_compartments]. *)
Definition count_valid (np : nat) (Js : vec) (thr : R) : nat :=
  ncount np (fun m => Rltb thr (Js m)).

(** [np.sign] *)
Definition rsign (x : R) : R :=
  if Rlt_dec 0 x then 1 else if Rlt_dec x 0 then -1 else 0.

(** _finder_impl.py:50-69 [make_valid_compartment_masks]: sign(Js - thr).clip(0). *)
Definition make_masks (Js : vec) (thr : R) : vec :=
  fun m => Rmax (rsign (Js m - thr)) 0.

(** python [int(x)]: truncation towards zero. *)
Definition py_int (x : R) : Z :=
  if Rle_dec 0 x then Int_part x else (- Int_part (- x))%Z.

(* ------------------------------------------------------------------ *)
(** * Revival *)

Section WithRng.
Context {G : Type} (ops : rng_ops G).

(** _finder_impl.py:117-121: centre and half width of each row of [targets]. *)
Definition target_center (np : nat) (targets : mat) (i : nat) : R :=
  (vmax np (targets i) + vmin np (targets i)) * (1/2).
Definition target_width (np : nat) (targets : mat) (i : nat) : R :=
  (vmax np (targets i) - vmin np (targets i)) * (1/2).

(** _finder_impl.py:128-131: redraw the column [m]. *)
Definition redraw_column (nf np : nat) (targets0 : mat) (scaler : R) (m : nat)
    (s : mat * G) : mat * G :=
  for_ nf (fun i '(targets, g) =>
     let '(u, g') := g_uniform ops g in
     (upd2 targets i m (target_center np targets0 i + target_width np targets0 i * scaler * u), g'))
    s.

(** _finder_impl.py:73-133 [revive_compartments_by_random]; returns the number
    of revived compartments and the modified [Js], [targets] and generator. *)
Definition revive_by_random (nf np : nat) (Js : vec) (targets : mat) (thr : R) (g : G)
    (scaler : R) : nat * vec * mat * G :=
  for_ np (fun m '(count, J, t, g) =>
     if Rleb (J m) thr then
       let '(t', g') := redraw_column nf np targets scaler m (t, g) in
       (S count, upd J m 1, t', g')
     else (count, J, t, g))
    (O, Js, targets, g).

(** State of [revive_compartments_by_copy]: the list of donors is the int32
    array [living_nicely_indexes] ([None] is the sentinel -1) with its length. *)
Record copy_state := {
  y_Js : vec; y_targets : mat; y_living : nat -> option nat; y_lc : nat; y_g : G;
  y_count : nat
}.

(** _finder_impl.py:176-186: classification of the compartments; returns the
    donor array, its length and the dead indices in increasing order. *)
Definition classify (np : nat) (Js : vec) (thr : R) : (nat -> option nat) * nat * list nat :=
  for_ np (fun m '(living, lc, dead) =>
     if Rltb (2 * thr) (Js m) then (upd living lc (Some m), S lc, dead)
     else if Rleb (Js m) thr then (living, lc, dead ++ [m])
     else (living, lc, dead))
    (fun _ => None, O, []).

(** _finder_impl.py:189-205: the [while True] loop looking for a donor.  Each
    unsuccessful pass removes one entry, so the donor count bounds the number
    of passes.  With no donor left [rng.integers(0, 0)] fails (ValueError in
    numpy; modelled as the exception [DonorsExhausted]).  Reading the sentinel
    -1 would index from the end of the array; modelled as IndexError. *)
Fixpoint find_donor (Js : vec) (thr : R) (lc : nat) (living : nat -> option nat) (g : G)
    : res (nat * (nat -> option nat) * nat * G) :=
  match lc with
  | O => Err DonorsExhausted
  | S k =>
      let '(pos, g') := g_integers ops g (S k) in
      match living pos with
      | None => Err IndexError
      | Some ref =>
          if Rltb (2 * thr) (Js ref) then Ok (ref, living, S k, g')
          else find_donor Js thr k (upd (upd living pos (living k)) k None) g'
      end
  end.

(** _finder_impl.py:188-205: body for one dead compartment [d].  Writing past
    the end of the donor array (length [num_part]) is an IndexError. *)
Definition copy_one (np : nat) (thr : R) (d : nat) (s : copy_state) : res copy_state :=
  let* (ref, living, lc, g') := find_donor (y_Js s) thr (y_lc s) (y_living s) (y_g s) in
  if negb (Nat.ltb lc np) then Err IndexError else
  let new_J := 1/2 * y_Js s ref in
  Ok {| y_Js := upd (upd (y_Js s) d new_J) ref new_J;
        y_targets := fun i m => if Nat.eqb m d then y_targets s i ref else y_targets s i m;
        y_living := upd living lc (Some d);
        y_lc := S lc;
        y_g := g';
        y_count := S (y_count s) |}.

Fixpoint copy_all (np : nat) (thr : R) (dead : list nat) (s : copy_state) : res copy_state :=
  match dead with
  | [] => Ok s
  | d :: dead' => let* s' := copy_one np thr d s in copy_all np thr dead' s'
  end.

(** _finder_impl.py:137-206 [revive_compartments_by_copy]; returns the number
    of revivals and the modified [Js], [targets] and generator. *)
Definition revive_by_copy (np : nat) (Js : vec) (targets : mat) (thr : R) (g : G)
    : res (nat * vec * mat * G) :=
  let '(living, lc, dead) := classify np Js thr in
  let* s := copy_all np thr dead
    {| y_Js := Js; y_targets := targets; y_living := living; y_lc := lc; y_g := g;
       y_count := O |} in
  Ok (y_count s, y_Js s, y_targets s, y_g s).

(* ------------------------------------------------------------------ *)
(** * One iteration *)

Context {St : Type}.

(** Compiled objects and constants of a call of the kernel
    (_finder_impl.py:210-228). *)
Record kernel := {
  q_inter : interaction;
  q_entropy : entropy;
  q_ensemble : ensemble;
  q_nf : nat;               (* num_feat, num_part = omegas.shape, line 324 *)
  q_np : nat;
  q_acc_J : R;              (* acceptance_Js *)
  q_ub : R;                 (* Js_step_upper_bound *)
  q_acc_w : R;              (* acceptance_omega *)
  q_thr : R;                (* kill_threshold *)
  q_scaler : R              (* revive_scaler *)
}.

(** Mutable arguments of the kernel. *)
Record kstate := {
  v_omegas : mat;
  v_Js : vec;
  v_phis_comp : mat;
  v_phis_feat : mat;
  v_cons : list (cons_obj St);
  v_g : G
}.

(** The four errors of a step. *)
Record report := { e_incomp : R; e_omega : R; e_Js : R; e_cons : R }.

Definition set_state (o : cons_obj St) (s : St) : cons_obj St :=
  {| o_class := o_class o; o_state := s |}.

(** lines 351-353: prepare every constraint. *)
Definition prepare_all (np : nat) (phis_feat : mat) (Js masks : vec)
    (l : list (cons_obj St)) : list (cons_obj St) :=
  map (fun o => set_state o (k_prepare (o_class o) np phis_feat Js masks (o_state o))) l.

(** [cons.potential[r]][m] and [cons.volume_derivative][m]. *)
Definition pot_of (o : cons_obj St) : mat := k_potential (o_class o) (o_state o).
Definition vd_of (o : cons_obj St) : vec := k_vd (o_class o) (o_state o).

(** lines 409-414: evolve every constraint and take the maximal residue. *)
Fixpoint evolve_all (np : nat) (step : R) (masks : vec) (worst : R)
    (l : list (cons_obj St)) : list (cons_obj St) * R :=
  match l with
  | [] => ([], worst)
  | o :: l' =>
      let '(s, x) := k_evolve (o_class o) np step masks (o_state o) in
      let '(l'', w) := evolve_all np step masks (Rmax worst x) l' in
      (set_state o s :: l'', w)
  end.

(** lines 359-368: the Lagrange multiplier of incompressibility.
    Simplification here and below: accumulation loops are written as sums. *)
Definition xi_of (nf : nat) (coef incomp masks : vec) (omegas pot : mat)
    (cs : list (cons_obj St)) : vec :=
  fun m =>
    (coef m * incomp m + rsum nf (fun r => omegas r m - pot r m)
      - lsum cs (fun o => rsum nf (fun r => pot_of o r m)))
    * masks m / INR nf.

(** lines 378-380: [omega_temp] after adding constraint potentials and xi. *)
Definition omega_temp_of (pot : mat) (cs : list (cons_obj St)) (xi : vec) : mat :=
  fun r m => pot r m + lsum cs (fun o => pot_of o r m) + xi m.

(** lines 371-381: local energy of the compartments. *)
Definition local_energy_of (nf : nat) (ivd svd xi incomp : vec)
    (cs : list (cons_obj St)) (otemp phis_feat : mat) : vec :=
  fun m =>
    ivd m + svd m + xi m * incomp m + lsum cs (fun o => vd_of o m)
    - rsum nf (fun r => otemp r m * phis_feat r m).

(** lines 399-403: signed maximum of the field differences, starting at 0. *)
Definition max_omega_diff (nf np : nat) (diff : mat) : R :=
  for_ nf (fun r acc => Rmax acc (vmax np (diff r))) 0.

(** _finder_impl.py:339-414: one iteration after a possible revival.
    Returns the new state, the number of valid compartments (line 341) and the
    errors.  Scalar divisions by zero raise ZeroDivisionError. *)
Definition iterate (q : kernel) (k : kstate) : res (kstate * Z * report) :=
  let nf := q_nf q in
  let np := q_np q in
  let masks := make_masks (v_Js k) (q_thr q) in                          (* 340 *)
  let n_valid := py_int (rsum np masks) in                               (* 341 *)
  let Js := fun m => v_Js k m * masks m in                               (* 342 *)
  let* (phis0, Qs) :=
    s_partition (q_entropy q) np (v_phis_comp k) (v_omegas k) Js in      (* 345 *)
  let* (phis, incomp) := n_normalize (q_ensemble q) phis0 Qs masks in   (* 346 *)
  let feat := s_comp_to_feat (q_entropy q) (v_phis_feat k) phis in       (* 347 *)
  let max_abs_incomp := vmax np (fun m => Rabs (incomp m)) in            (* 348 *)
  let cs := prepare_all np feat Js masks (v_cons k) in                   (* 351-353 *)
  let pot := i_potential (q_inter q) feat in                             (* 356 *)
  let xi := xi_of nf (i_coef (q_inter q) feat) incomp masks (v_omegas k) pot cs in
                                                                         (* 359-368 *)
  let otemp := omega_temp_of pot cs xi in                                (* 378, 380 *)
  let le := local_energy_of nf (i_vd (q_inter q) pot feat)
              (s_vd (q_entropy q) phis) xi incomp cs otemp feat in       (* 371-381 *)
  if Z.eqb n_valid 0 then Err ZeroDivisionError else
  let le_mean := rsum np (fun m => le m * Js m) / IZR n_valid in         (* 384 *)
  let Js_diff := fun m => (le_mean - le m) * masks m in                  (* 385 *)
  let max_abs_Js_diff := vmax np (fun m => Rabs (Js_diff m)) in          (* 386 *)
  let Js_max_change := Rmax (max_abs_Js_diff * q_acc_J q) (q_ub q) in    (* 389 *)
  if Reqb Js_max_change 0 then Err ZeroDivisionError else
  let factor := q_ub q / Js_max_change in                                (* 390 *)
  let Js1 := fun m => (Js m + factor * q_acc_J q * Js_diff m) * masks m in (* 393-394 *)
  let shift := 1 - rsum np Js1 / IZR n_valid in                          (* 395 *)
  let Js2 := fun m => (Js1 m + shift) * masks m in                       (* 395-396 *)
  let diff := fun r m => (otemp r m - v_omegas k r m) * masks m in       (* 401-402 *)
  let omegas' := fun r m =>
    (v_omegas k r m + factor * q_acc_w q * diff r m) * masks m in        (* 404-407 *)
  let '(cs', residue) := evolve_all np (factor * q_acc_w q) masks 0 cs in (* 409-414 *)
  Ok ({| v_omegas := omegas'; v_Js := Js2; v_phis_comp := phis; v_phis_feat := feat;
         v_cons := cs'; v_g := v_g k |},
      n_valid,
      {| e_incomp := max_abs_incomp;
         e_omega := max_omega_diff nf np diff;
         e_Js := max_abs_Js_diff;
         e_cons := residue |}).

(** _finder_impl.py:331-337: revival at the beginning of an iteration when
    [revive_count < revive_tries]. *)
Definition maybe_revive (q : kernel) (tries : Z) (count : nat) (k : kstate) : nat * kstate :=
  if Z.ltb (Z.of_nat count) tries then
    if Nat.eqb (count_valid (q_np q) (v_Js k) (q_thr q)) (q_np q) then (count, k)
    else
      let '(c, J, t, g) :=
        revive_by_random (q_nf q) (q_np q) (v_Js k) (v_omegas k) (q_thr q) (v_g k) (q_scaler q) in
      ((count + c)%nat,
       {| v_omegas := t; v_Js := J; v_phis_comp := v_phis_comp k;
          v_phis_feat := v_phis_feat k; v_cons := v_cons k; v_g := g |})
  else (count, k).

(** Loop variables of [multicomponent_self_consistent_metastep]. *)
Record mstate := {
  w_k : kstate;
  w_count : nat;              (* revive_count *)
  w_valid : Z;                (* n_valid_phase *)
  w_rep : option report       (* None before the first iteration *)
}.

(** _finder_impl.py:329-414: one pass of the loop. *)
Definition one_step (q : kernel) (tries : Z) (w : mstate) : res mstate :=
  let '(count, k) := maybe_revive q tries (w_count w) (w_k w) in
  let* (k', n_valid, rep) := iterate q k in
  Ok {| w_k := k'; w_count := count; w_valid := n_valid; w_rep := Some rep |}.

(** [for _ in range(steps_inner)] *)
Fixpoint steps (q : kernel) (tries : Z) (n : nat) (w : mstate) : res mstate :=
  match n with
  | O => Ok w
  | S n' => let* w' := steps q tries n' w in one_step q tries w'
  end.

(** _finder_impl.py:210-426 [multicomponent_self_consistent_metastep]:
    returns state, errors, revive count and "no phase killed in the last step".
    With [steps_inner = 0] the returned variables are unbound. *)
Definition metastep (q : kernel) (steps_inner : nat) (tries : Z) (k : kstate)
    : res (kstate * report * nat * bool) :=
  let* w := steps q tries steps_inner
              {| w_k := k; w_count := O; w_valid := 0%Z; w_rep := None |} in
  match w_rep w with
  | None => Err UnboundLocalError
  | Some rep =>
      Ok (w_k w, rep, w_count w,
          Z.eqb (w_valid w) (Z.of_nat (count_valid (q_np q) (v_Js (w_k w)) (q_thr q))))
  end.

End WithRng.
Arguments kstate G St : clear implicits.
Arguments mstate G St : clear implicits.
Arguments copy_state G : clear implicits.
