(** What a spectral transformation is expected to do, independently of how the transformed matrices
    are stored.  [B] stands for the identity when only A is given. *)
From mathcomp Require Import all_ssreflect all_algebra.
From Verif Require Import Prelude STModel.
Set Implicit Arguments. Unset Strict Implicit. Unset Printing Implicit Defensive.
Import GRing.Theory.
Local Open Scope ring_scope.

Section Spec.
Variable K : fieldType.
Variable conj : {rmorphism K -> K}.
Variable n : nat.
Notation mat := 'M[K]_n.
Notation vec := 'cV[K]_n.
Notation op := (op K n).
Notation answer := (answer K n).

Definition second (b : option mat) : mat := odflt 1%:M b.

(** The operator is inv(den) * num. *)
Definition den (t : sttype) (sg : K) (a : mat) (b : option mat) : mat :=
  match t with
  | Shift => second b
  | Sinvert => a - sg *: second b
  | Cayley => a - sg *: second b
  end.
Definition num (t : sttype) (sg nu : K) (a : mat) (b : option mat) : mat :=
  match t with
  | Shift => a - sg *: second b
  | Sinvert => second b
  | Cayley => a + nu *: second b
  end.
Definition dmx (d : vec) : mat := diag_mx d^T.
Definition operator (t : sttype) (sg nu : K) (a : mat) (b : option mat) (d : option vec) : mat :=
  let o := invmx (den t sg a b) *m num t sg nu a b in
  if d is Some d then dmx d *m o *m invmx (dmx d) else o.

(** The abstract object: the parameters, whether the object is set up, and three facts about the past:
    whether the operator has been computed since the last change ([ready]), whether it was ever requested
    with STApply or STGetOperator ([made]) and whether matrices were ever computed ([built]). *)
Record sst := Sst {
  s_ty : sttype; s_mode : matmode; s_sigma : K; s_sigset : bool; s_def : K; s_transf : bool;
  s_state : ststate; s_ready : bool; s_made : bool; s_built : bool;
  s_mats : option (mat * option mat); s_nu : K; s_nuset : bool; s_bal : option vec }.

Definition s_create (t : sttype) : sst :=
  Sst t Copy 0 false 0 false Initial false false false None 0 false None.

(** The shift and antishift in effect when the operator is computed: the default shift is used by
    shift-and-invert and Cayley if no shift was given, the antishift follows the shift if not given. *)
Definition eff_sigma (s : sst) : K :=
  match s_ty s with Shift => s_sigma s | _ => if s_sigset s then s_sigma s else s_def s end.
Definition eff_nu (s : sst) : K :=
  match s_ty s with Cayley => if s_nuset s then s_nu s else eff_sigma s | _ => s_nu s end.
(** Cayley: shift and antishift not both zero, and not opposite. *)
Definition admissible (t : sttype) (sg nu : K) : bool :=
  match t with Cayley => ((nu != 0) || (sg != 0)) && (nu != - sg) | _ => true end.

Definition inplace (m : matmode) : bool := mode_eq m Inplace.
(** The user's matrix A is modified exactly in this situation. *)
Definition shifted (s : sst) : bool := inplace (s_mode s) && s_ready s.

Definition changed (s : sst) : sst :=   (* something changed: everything will be recomputed *)
  Sst (s_ty s) (s_mode s) (s_sigma s) (s_sigset s) (s_def s) (s_transf s) Initial false (s_made s) (s_built s)
      (s_mats s) (s_nu s) (s_nuset s) (s_bal s).
Definition s_compute (s : sst) : res sst :=
  if s_ready s then Ok s
  else check (admissible (s_ty s) (eff_sigma s) (eff_nu s))
    (Ok (Sst (s_ty s) (s_mode s) (eff_sigma s) (s_sigset s) (s_def s) (s_transf s) (s_state s) true
             (s_made s) true (s_mats s) (eff_nu s) (s_nuset s) (s_bal s))).
Definition with_state (st : ststate) (s : sst) : sst :=
  Sst (s_ty s) (s_mode s) (s_sigma s) (s_sigset s) (s_def s) (s_transf s) st (s_ready s) (s_made s) (s_built s)
      (s_mats s) (s_nu s) (s_nuset s) (s_bal s).
Definition with_made (s : sst) : sst :=
  Sst (s_ty s) (s_mode s) (s_sigma s) (s_sigset s) (s_def s) (s_transf s) (s_state s) (s_ready s) true (s_built s)
      (s_mats s) (s_nu s) (s_nuset s) (s_bal s).
Definition s_setup (s : sst) : res sst :=
  check (isSome (s_mats s)) (do s <- s_compute s; Ok (with_state SetUp s)).
(** STApply and its transposes: the object is set up first. *)
Definition s_apply (s : sst) (f : mat -> vec -> vec) (x : vec) : res (sst * answer) :=
  do s <- s_setup s;
  match s_mats s with
  | Some (a, b) =>
      check (den (s_ty s) (s_sigma s) a b \in unitmx)
        (Ok (with_made s, Vec (f (operator (s_ty s) (s_sigma s) (s_nu s) a b (s_bal s)) x)))
  | None => Err
  end.

Definition s_step (s : sst) (o : op) : res (sst * answer) :=
  match o with
  | OType t =>
      if sttype_eq (s_ty s) t then Ok (s, Unit _ _)
      else let s := changed s in
           Ok (Sst t (s_mode s) (s_sigma s) (s_sigset s) (s_def s) (s_transf s) (s_state s) (s_ready s) (s_made s)
                 (s_built s) (s_mats s) (if t is Cayley then 0 else s_nu s) (if t is Cayley then false else s_nuset s)
                 (s_bal s), Unit _ _)
  | OMode m =>
      if mode_eq (s_mode s) m then Ok (s, Unit _ _)
      else let s := changed s in
           Ok (Sst (s_ty s) m (s_sigma s) (s_sigset s) (s_def s) (s_transf s) (s_state s) (s_ready s) (s_made s)
                 (s_built s) (s_mats s) (s_nu s) (s_nuset s) (s_bal s), Unit _ _)
  | OTransform b =>
      if s_transf s == b then Ok (s, Unit _ _)
      else let s := changed s in
           Ok (Sst (s_ty s) (s_mode s) (s_sigma s) (s_sigset s) (s_def s) b (s_state s) (s_ready s) (s_made s)
                 (s_built s) (s_mats s) (s_nu s) (s_nuset s) (s_bal s), Unit _ _)
  | ODefault d =>
      if s_def s == d then Ok (s, Unit _ _)
      else let s := changed s in
           Ok (Sst (s_ty s) (s_mode s) (s_sigma s) (s_sigset s) d (s_transf s) (s_state s) (s_ready s) (s_made s)
                 (s_built s) (s_mats s) (s_nu s) (s_nuset s) (s_bal s), Unit _ _)
  | OBalance d =>
      if (s_bal s == None) && (d == None) then Ok (s, Unit _ _)
      else let s := changed s in
           Ok (Sst (s_ty s) (s_mode s) (s_sigma s) (s_sigset s) (s_def s) (s_transf s) (s_state s) (s_ready s) (s_made s)
                 (s_built s) (s_mats s) (s_nu s) (s_nuset s) d, Unit _ _)
  | OShift g =>
      (* the operator of an object that is set up follows the shift at once; the antishift of a Cayley
         transform follows the shift unless the user gave one *)
      let up := state_eq (s_state s) SetUp && (s_sigma s != g) in
      let nu' := if up && sttype_eq (s_ty s) Cayley && ~~ s_nuset s then g else s_nu s in
      check (~~ up || admissible (s_ty s) g nu')
        (Ok (Sst (s_ty s) (s_mode s) g true (s_def s) (s_transf s) (s_state s) (s_ready s) (s_made s)
               (s_built s) (s_mats s) nu' (s_nuset s) (s_bal s), Unit _ _))
  | OAntishift g =>
      if s_ty s is Cayley then
        Ok (Sst (s_ty s) (s_mode s) (s_sigma s) (s_sigset s) (s_def s) (s_transf s) (s_state s) (s_ready s) (s_made s)
              (s_built s) (s_mats s) g true (s_bal s), Unit _ _)
      else Ok (s, Unit _ _)
  | OMatrices a b =>
      let fresh := state_eq (s_state s) Initial in
      Ok (Sst (s_ty s) (s_mode s) (s_sigma s) (s_sigset s) (s_def s) (s_transf s) Initial false
            (fresh && s_made s) (fresh && s_built s) (Some (a, b)) (s_nu s) (s_nuset s)
            (if fresh then s_bal s else None), Unit _ _)
  | OUpdate a b =>
      Ok (Sst (s_ty s) (s_mode s) (s_sigma s) (s_sigset s) (s_def s) (s_transf s)
            (if s_state s is Initial then Initial else Updated) false (s_made s) (s_built s) (Some (a, b))
            (s_nu s) (s_nuset s) (s_bal s), Unit _ _)
  | OSetUp => do s <- s_setup s; Ok (s, Unit _ _)
  | OGetOperator =>
      check (isSome (s_mats s))
        (if s_made s then Ok (s, Unit _ _) else do s <- s_compute s; Ok (with_made s, Unit _ _))
  | OPostSolve => Ok (if inplace (s_mode s) then changed s else s, Unit _ _)
  | OApply x => s_apply s (fun m x => m *m x) x
  | OApplyT x => s_apply s (fun m x => m^T *m x) x
  | OApplyH x => s_apply s (fun m x => (map_mx conj m)^T *m x) x
  | OGetShift => Ok (s, Scalar _ (s_sigma s))
  | OReadA =>
      if s_mats s is Some (a, b) then
        Ok (s, Mat (if shifted s then a - s_sigma s *: second b else a))
      else Err
  | OReadB => if s_mats s is Some (_, Some b) then Ok (s, Mat b) else Err
  end.

(** The calls that are covered.  The exclusions are, in this order: changing the configuration while A is
    shifted in place (call STPostSolve first); a zero in the balancing vector; changing the shift (or the
    antishift) after STGetOperator but before the object is set up; a Cayley shift opposite to the shift that
    the antishift follows; an antishift that becomes zero or stops being zero in an object that is set up; the transform flag
    off; STApply or STGetOperator as the first request of the operator when it was set up before the last
    change; STPostSolve when A is not shifted; transposed products of the Cayley transform in place when
    sigma+nu is not real.  All except the zero in the balancing vector and the transform flag (plain
    preconditions) are shown to matter in STProps.v. *)
Definition unused (s : sst) : bool :=
  ~~ state_eq (s_state s) Initial || s_ready s || s_made s || ~~ s_built s.
Definition real_cayley (s : sst) : bool :=
  (sttype_eq (s_ty s) Cayley && inplace (s_mode s)) ==>
  (let sg := if s_ready s then s_sigma s else eff_sigma s in
   let v := if s_ready s then s_nu s else eff_nu s in conj (v + sg) == v + sg).
Definition legal (s : sst) (o : op) : bool :=
  match o with
  | OType t => sttype_eq (s_ty s) t || ~~ shifted s
  | OMode m => mode_eq (s_mode s) m || ~~ shifted s
  | OTransform b => (s_transf s == b) || ~~ shifted s
  | ODefault d => (s_def s == d) || ~~ shifted s
  | OBalance d => (if d is Some d then [forall i, d i 0 != 0] else true) &&
                  (((s_bal s == None) && (d == None)) || ~~ shifted s)
  | OMatrices _ _ => ~~ shifted s
  | OUpdate a b => if s_mats s is Some (_, b') then isSome b == isSome b' else false
  | OShift g =>
      [|| s_sigma s == g, ~~ s_ready s |
       state_eq (s_state s) SetUp &&
       ((sttype_eq (s_ty s) Cayley && ~~ s_nuset s) ==> (g != - s_nu s))]
  | OAntishift g =>
      [|| ~~ sttype_eq (s_ty s) Cayley, s_nu s == g, ~~ s_ready s, inplace (s_mode s) |
          ~~ state_eq (s_state s) Initial &&
          (mode_eq (s_mode s) ShellMode || ((s_nu s != 0) && (g != 0)))]
  | OSetUp => s_transf s
  | OGetOperator => s_transf s && unused s
  | OApply _ => s_transf s && unused s
  | OApplyT _ | OApplyH _ => [&& s_transf s, unused s & real_cayley s]
  | OPostSolve => ~~ inplace (s_mode s) || s_ready s
  | OGetShift | OReadA | OReadB => true
  end.

Fixpoint s_run (s : sst) (os : seq op) : res (sst * seq answer) :=
  match os with
  | [::] => Ok (s, [::])
  | o :: os' => do '(s, a) <- s_step s o; do '(s, l) <- s_run s os'; Ok (s, a :: l)
  end.
Fixpoint legal_run (s : sst) (os : seq op) : bool :=
  match os with
  | [::] => true
  | o :: os' => legal s o && (if s_step s o is Ok (s', _) then legal_run s' os' else true)
  end.

(** ** Eigenvalues *)

(** x is an eigenvector of the pair (A,B) / of a matrix. *)
Definition geig (a b : mat) (lam : K) (x : vec) : Prop := x != 0 /\ a *m x = lam *: (b *m x).
Definition eig (m : mat) (th : K) (x : vec) : Prop := x != 0 /\ m *m x = th *: x.

(** The transformed eigenvalue. *)
Definition theta (t : sttype) (sg nu lam : K) : K :=
  match t with
  | Shift => lam - sg
  | Sinvert => 1 / (lam - sg)
  | Cayley => (lam + nu) / (lam - sg)
  end.

(** A transformed eigenvalue that corresponds to a finite eigenvalue of the problem. *)
Definition finite_value (t : sttype) (th : K) : bool :=
  match t with Shift => true | Sinvert => th != 0 | Cayley => th != 1 end.
(** Shift and antishift of a Cayley transform are not opposite (otherwise the operator is the identity). *)
Definition separate (t : sttype) (sg nu : K) : bool := if t is Cayley then nu != - sg else true.
(** The eigenvector of the problem for an eigenvector of the balanced operator. *)
Definition unbalance (d : option vec) (x : vec) : vec := if d is Some d then invmx (dmx d) *m x else x.
Definition nonzero (d : option vec) : bool := if d is Some d then [forall i, d i 0 != 0] else true.

(** ** Polynomials *)

(** P(z) = sum_i A_i z^i *)
Definition peval (As : seq mat) (z : K) : mat := \sum_(i < size As) z ^+ i *: nth 0 As i.

(** The transformed polynomial: P(z+s), and z^d P(1/z+s) for a polynomial of degree d. *)
Definition transformed (t : sttype) (s : K) (As Ts : seq mat) : Prop :=
  match t with
  | Shift => forall z, peval Ts z = peval As (z + s)
  | _ => forall z, z != 0 -> peval Ts z = z ^+ (size As).-1 *: peval As (z^-1 + s)
  end.

End Spec.
