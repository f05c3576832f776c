(** What a basis is for its user, independently of slots, handles and storage: numbered columns
    -nc..m-1 (negative numbers are constraints) and the set of columns currently handed out. *)
From Coq Require Import ZArith List Bool Lia.
From Verif Require Import Prelude BVModel.
Import ListNotations.
Open Scope Z_scope.

Section Spec.
Variable T : Type.
Variable zero : T.

Record basis := Basis { a_nc : Z; a_m : Z; a_col : Z -> T; a_out : list Z }.

Definition valid (a : basis) (j : Z) : Prop := - a_nc a <= j < a_m a.
Definition validb (a : basis) (j : Z) : bool := (- a_nc a <=? j) && (j <? a_m a).
Definition outb (a : basis) (j : Z) : bool := existsb (Z.eqb j) (a_out a).

(** The calls, named by column numbers only. *)
Inductive call :=
| CGet (j : Z)            (* BVGetColumn *)
| CRead (j : Z)           (* look at a column handed out *)
| CWrite (j : Z) (v : T)  (* modify a column handed out *)
| CRestore (j : Z)        (* BVRestoreColumn *)
| CConstraints (nc : Z)   (* BVSetNumConstraints *)
| CResize (m : Z) (copy : bool)
| CCopy (j i : Z)         (* BVCopyColumn *)
| CActive (l k : iarg).   (* BVSetActiveColumns *)

(** [ABad] (undefined behaviour) is never an answer of a basis. *)
Inductive answer := AOk | AErr | AVal (v : T) | ABad.

Definition setcol (f : Z -> T) (j : Z) (v : T) : Z -> T := fun i => if i =? j then v else f i.

Definition basis_step (a : basis) (c : call) : basis * answer :=
  match c with
  | CGet j =>
      if validb a j && negb (outb a j) && (length (a_out a) <? 2)%nat
      then (Basis (a_nc a) (a_m a) (a_col a) (j :: a_out a), AOk) else (a, AErr)
  | CRead j => if outb a j then (a, AVal (a_col a j)) else (a, AErr)
  | CWrite j v =>
      if outb a j then (Basis (a_nc a) (a_m a) (setcol (a_col a) j v) (a_out a), AOk) else (a, AErr)
  | CRestore j =>
      if outb a j
      then (Basis (a_nc a) (a_m a) (a_col a) (remove Z.eq_dec j (a_out a)), AOk) else (a, AErr)
  | CConstraints nc =>
      if (0 <=? nc) && (nc <? a_nc a + a_m a) && (length (a_out a) =? 0)%nat then
        let d := nc - a_nc a in
        (* fewer constraints: regular columns keep their number and content, the first
           constraints are kept, the columns that appear at the end duplicate others;
           more constraints: columns are renumbered *)
        let col := if d <? 0
                   then fun j => if (0 <=? j) && (j <? a_m a) then a_col a j else a_col a (j + d)
                   else fun j => a_col a (j + d) in
        (Basis nc (a_nc a + a_m a - nc) col [], AOk)
      else (a, AErr)
  | CResize m copy =>
      if (0 <? m) && (a_nc a =? 0) then
        if a_m a =? m then (a, AOk)
        else (Basis 0 m (fun j => if copy && (j <? a_m a) then a_col a j else zero) (a_out a), AOk)
      else (a, AErr)
  | CCopy j i => (Basis (a_nc a) (a_m a) (setcol (a_col a) i (a_col a j)) (a_out a), AOk)
  | CActive l k => (a, AOk)
  end.

(** Obligations of the caller that the code does not check: no column handed out when resizing,
    valid numbers in BVCopyColumn; BVSetActiveColumns is given acceptable arguments (what it
    accepts is the subject of C20). *)
Definition allowed (a : basis) (c : call) : Prop :=
  match c with
  | CResize _ _ => a_out a = []
  | CCopy j i => valid a j /\ valid a i
  | CActive l k => l = Determine /\ (k = Determine \/ k = Current)
  | _ => True
  end.

Fixpoint basis_run (a : basis) (cs : list call) : list answer :=
  match cs with
  | [] => []
  | c :: r => let '(a', o) := basis_step a c in o :: basis_run a' r
  end.
Fixpoint all_allowed (a : basis) (cs : list call) : Prop :=
  match cs with
  | [] => True
  | c :: r => allowed a c /\ all_allowed (fst (basis_step a c)) r
  end.

(** A caller of the model: it keeps, for each column number, the Vec obtained for it. *)
Variable Sg : Type.
Variables sone szero : Sg.
Definition table := Z -> option handle.
Definition vset (t : table) (j : Z) (v : option handle) : table :=
  fun i => if i =? j then v else t i.

Definition lift (r : sys T Sg * res (out T Sg)) (t : table) : (sys T Sg * table) * answer :=
  match r with
  | (s, Ok (Content _ _ v)) => ((s, t), AVal v)
  | (s, Ok _) => ((s, t), AOk)
  | (s, Err) => ((s, t), AErr)
  | (s, _) => ((s, t), ABad)
  end.
Definition mstep := step T zero Sg sone szero.

Definition client_step (st : sys T Sg * table) (c : call) : (sys T Sg * table) * answer :=
  let '(s, t) := st in
  match c with
  | CGet j => match mstep s (GetColumn T Sg Par j) with
              | (s', Ok (Vec _ _ p)) => ((s', vset t j (Some p)), AOk)
              | (s', Err) => ((s', t), AErr)
              | (s', _) => ((s', t), ABad)
              end
  | CRead j => match t j with Some p => lift (mstep s (Read T Sg p)) t | None => (st, AErr) end
  | CWrite j v => match t j with Some p => lift (mstep s (Write T Sg p v)) t | None => (st, AErr) end
  | CRestore j => match t j with
                  | Some p => match mstep s (RestoreColumn T Sg Par j p) with
                              | (s', Ok _) => ((s', vset t j None), AOk)
                              | (s', Err) => ((s', t), AErr)
                              | (s', _) => ((s', t), ABad)
                              end
                  | None => (st, AErr)
                  end
  | CConstraints nc => lift (mstep s (SetNumConstraints T Sg nc)) t
  | CResize m copy => lift (mstep s (Resize T Sg m copy)) t
  | CCopy j i => lift (mstep s (CopyColumn T Sg j i)) t
  | CActive l k => lift (mstep s (SetActive T Sg Par l k)) t
  end.
Fixpoint client_run (st : sys T Sg * table) (cs : list call) : list answer :=
  match cs with
  | [] => []
  | c :: r => let '(st', o) := client_step st c in o :: client_run st' r
  end.

End Spec.

(** ** Programs and their domain *)
Section Programs.
Variable T : Type.
Variable zero : T.
Variable Sg : Type.
Variables sone szero : Sg.
Notation sys := (sys T Sg).
Notation op := (op T Sg).
Notation step := (step T zero Sg sone szero).

(** States reached from a new basis of m columns by calls that satisfy [P] (a condition on the
    state before the call and the call) ... *)
Inductive reach (P : sys -> op -> Prop) : sys -> Prop :=
| reach_new m s : bv_create T zero Sg m = Ok s -> reach P s
| reach_call s c : reach P s -> P s c -> reach P (fst (step s c)).

(** ... and return successfully. *)
Definition succeeds (s : sys) (c : op) : Prop := exists r, snd (step s c) = Ok r.

(** Content of column j of one of the three objects as a program sees it: obtain it, look at it. *)
Definition peek (s : sys) (w : who) (j : Z) : option T :=
  match step s (GetColumn T Sg w j) with
  | (s', Ok (Vec _ _ p)) =>
      match step s' (Read T Sg p) with
      | (_, Ok (Content _ _ v)) => Some v
      | _ => None
      end
  | _ => None
  end.

(** The signature a user expects: one value per column (also for the constraints), 1 if never set.
    [nc],[m],[k] are what BVGetNumConstraints, BVGetSizes, BVGetActiveColumns return before the
    call. *)
Definition sign_after (nc m k : Z) (indef : bool) (g : Z -> Sg) (c : op) : Z -> Sg :=
  match c with
  | SetSignature _ _ vs =>
      if indef then fun j => if (0 <=? j) && (j <? k) then nth (Z.to_nat j) vs sone else g j else g
  | CopyColumn _ _ j i => fun q => if q =? i then g j else g q
  | Resize _ _ m' copy =>
      if m =? m' then g else fun j => if copy && (j <? m) then g j else sone
  | SetNumConstraints _ _ nc' => fun j => g (if nc' <? nc then j else j + (nc' - nc))
  | _ => g
  end.

(** Signatures along a history of calls that satisfy [P]. *)
Inductive sreach (P : sys -> op -> Prop) : sys -> (Z -> Sg) -> Prop :=
| sreach_new m s : bv_create T zero Sg m = Ok s -> sreach P s (fun _ => sone)
| sreach_ok s g c r : sreach P s g -> P s c -> snd (step s c) = Ok r ->
    sreach P (fst (step s c))
      (sign_after (o_nc (s_par T Sg s)) (o_m (s_par T Sg s)) (o_k (s_par T Sg s)) (s_indef T Sg s) g c)
| sreach_fail s g c : sreach P s g -> P s c -> (forall r, snd (step s c) <> Ok r) ->
    sreach P (fst (step s c)) g.

Definition signs (k : Z) (indef : bool) (g : Z -> Sg) : list Sg :=
  if indef then map (fun i => g (Z.of_nat i)) (seq 0 (Z.to_nat k)) else repeat sone (Z.to_nat k).

End Programs.
