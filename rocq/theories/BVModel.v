(** Model of the basis vectors object (BV): columns, active columns, constraints, resizing,
    signature, coefficients buffer and split views.
    /repo/src/sys/classes/bv/interface/bvbasic.c, bvfunc.c, include/slepc/private/bvimpl.h and the
    storage layout common to impls/svec/svec.c, impls/contiguous/contig.c, impls/vecs/vecs.c.

    A BV is seen as a program of calls made by one process; the parallel distribution of the
    rows is not modelled (a column is a value of an arbitrary type [T]). *)
From Coq Require Import ZArith List Bool Lia.
From Verif Require Import Prelude.
Import ListNotations.
Open Scope Z_scope.

Section BV.
Variable T : Type.          (* content of one column *)
Variable zero : T.          (* content of a newly allocated column: VecDuplicateVecs, PetscCalloc1,
                               VecCreate all give zeros (vecs.c:324-347, contig.c:218-246, svec.c:261-290) *)
Variable Sg : Type.         (* scalars of the signature *)
Variables sone szero : Sg.

(** Storage of the columns: one allocation per BV (Vec* array of BVVECS, array of BVCONTIGUOUS,
    big Vec of BVSVEC); each column has its content and the PetscObjectState of its Vec.
    A freed allocation is [None]. *)
Definition cell := (T * Z)%type.
Definition heap := list (option (list cell)).

Definition block (h : heap) (b : nat) : res (list cell) :=
  match nth_error h b with Some (Some cs) => Ok cs | _ => UB end.
Fixpoint upd (h : heap) (b : nat) (v : option (list cell)) : heap :=
  match h, b with
  | [], _ => []
  | _ :: t, O => v :: t
  | x :: t, S b' => x :: upd t b' v
  end.

(** A Vec handed out by BVGetColumn: the allocation and the position of the column in it. *)
Definition handle := (nat * Z)%type.

Definition hget (h : heap) (p : handle) : res cell :=
  do cs <- block h (fst p); aget cs (snd p).
(** Any operation that modifies a Vec sets its content and increases its state. *)
Definition hset (h : heap) (p : handle) (v : T) : res heap :=
  do cs <- block h (fst p);
  do c <- aget cs (snd p);
  do cs' <- aset cs (snd p) (v, snd c + 1);
  Ok (upd h (fst p) (Some cs')).

(** Fields of struct _p_BV (bvimpl.h:53-113) used here.  [o_blk],[o_off] stand for the pointer
    into the storage held by the implementation (ctx->V, ctx->array, ctx->v): a split view holds
    a pointer into the storage of its parent. *)
Record obj := Obj {
  o_blk : nat; o_off : Z;
  o_nc : Z; o_m : Z; o_l : Z; o_k : Z;
  o_c0 : Z; o_c1 : Z;                       (* ci[0], ci[1] *)
  o_s0 : Z; o_s1 : Z;                       (* st[0], st[1] *)
  o_i0 : option handle; o_i1 : option handle; (* id[0], id[1] *)
  o_state : Z                               (* PetscObjectState of the BV *)
}.

Record sys := Sys {
  s_heap : heap;
  s_par : obj;
  s_L : option obj; s_R : option obj;       (* bv->L, bv->R *)
  s_lsplit : Z;
  s_indef : bool;
  s_omega : option (list Sg);
  s_buf : option Z                          (* length of bv->buffer *)
}.

Definition with_par (s : sys) (o : obj) : sys :=
  Sys (s_heap s) o (s_L s) (s_R s) (s_lsplit s) (s_indef s) (s_omega s) (s_buf s).
Definition with_heap (s : sys) (h : heap) : sys :=
  Sys h (s_par s) (s_L s) (s_R s) (s_lsplit s) (s_indef s) (s_omega s) (s_buf s).
Definition with_omega (s : sys) (w : option (list Sg)) : sys :=
  Sys (s_heap s) (s_par s) (s_L s) (s_R s) (s_lsplit s) (s_indef s) w (s_buf s).
Definition with_buf (s : sys) (b : option Z) : sys :=
  Sys (s_heap s) (s_par s) (s_L s) (s_R s) (s_lsplit s) (s_indef s) (s_omega s) b.

Definition bump (o : obj) : obj :=
  Obj (o_blk o) (o_off o) (o_nc o) (o_m o) (o_l o) (o_k o) (o_c0 o) (o_c1 o) (o_s0 o) (o_s1 o)
      (o_i0 o) (o_i1 o) (o_state o + 1).
Definition with_lk (o : obj) (l k : Z) : obj :=
  Obj (o_blk o) (o_off o) (o_nc o) (o_m o) l k (o_c0 o) (o_c1 o) (o_s0 o) (o_s1 o)
      (o_i0 o) (o_i1 o) (o_state o).
Definition with_slot0 (o : obj) (c st : Z) (id : option handle) : obj :=
  Obj (o_blk o) (o_off o) (o_nc o) (o_m o) (o_l o) (o_k o) c (o_c1 o) st (o_s1 o)
      id (o_i1 o) (o_state o).
Definition with_slot1 (o : obj) (c st : Z) (id : option handle) : obj :=
  Obj (o_blk o) (o_off o) (o_nc o) (o_m o) (o_l o) (o_k o) (o_c0 o) c (o_s0 o) st
      (o_i0 o) id (o_state o).

(** BVCreate (bvfunc.c:165-231) followed by BVSetSizes/BVSetSizesFromVec and BVSetType: m columns,
    k = m, l = 0, nc = 0, ci = -1, storage of m columns. BVSetSizes checks m > 0
    (bvbasic.c:112-150). *)
Definition new_obj (b : nat) (off m : Z) : obj :=
  Obj b off 0 m 0 m (-1) (-1) (-1) (-1) None None 1.
Definition bv_create (m : Z) : res sys :=
  check (0 <? m)
   (Ok (Sys [Some (repeat (zero, 0) (Z.to_nat m))] (new_obj 0 0 m) None None 0 false None None)).

(** Position in the storage of column j: ctx->V[bv->nc+j] (vecs.c:355), array+(nc+j)*ld
    (contig.c:255, svec.c:301), relative to the pointer held by the object. *)
Definition colpos (o : obj) (j : Z) : handle := (o_blk o, o_off o + o_nc o + j).

(** bvbasic.c:1134-1155 BVGetColumn.  BVAvailableVec (bvimpl.h:234) is the first slot whose ci
    equals -nc-1.  Reading the state of the Vec of a freed allocation is undefined behaviour. *)
Definition get_column (h : heap) (o : obj) (j : Z) : res (obj * handle) :=
  check ((0 <=? j) || (- j <=? o_nc o))
  (check (j <? o_m o)
  (check (negb (j =? o_c0 o) && negb (j =? o_c1 o))
  (check ((o_c0 o =? - o_nc o - 1) || (o_c1 o =? - o_nc o - 1))
  (let p := colpos o j in
   do c <- hget h p;
   if o_c0 o =? - o_nc o - 1
   then Ok (with_slot0 o j (snd c) (Some p), p)
   else Ok (with_slot1 o j (snd c) (Some p), p))))).

Definition handle_eqb (p q : handle) : bool := Nat.eqb (fst p) (fst q) && (snd p =? snd q).
Definition id_eqb (i : option handle) (p : handle) : bool :=
  match i with Some q => handle_eqb p q | None => false end.

(** bvbasic.c:1174-1201 BVRestoreColumn(bv,j,&v), v given by its handle. *)
Definition restore_column (h : heap) (o : obj) (j : Z) (p : handle) : res obj :=
  check ((0 <=? j) || (- j <=? o_nc o))
  (check (j <? o_m o)
  (check ((j =? o_c0 o) || (j =? o_c1 o))
  (do c <- hget h p;
   if j =? o_c0 o then
     check (id_eqb (o_i0 o) p)
     (let o1 := if snd c =? o_s0 o then o else bump o in
      Ok (with_slot0 o1 (- o_nc o - 1) (-1) None))
   else
     check (id_eqb (o_i1 o) p)
     (let o1 := if snd c =? o_s1 o then o else bump o in
      Ok (with_slot1 o1 (- o_nc o - 1) (-1) None))))).

(** Value of an argument of BVSetActiveColumns: PETSC_DETERMINE, PETSC_CURRENT or a number. *)
Inductive iarg := Determine | Current | Val (z : Z).

(** bvbasic.c:442-462 BVSetActiveColumns: resulting object and success flag; k has already been
    stored when the check of l fails. *)
Definition set_active (o : obj) (l k : iarg) : obj * bool :=
  let ok_k := match k with Val z => (0 <=? z) && (z <=? o_m o) | _ => true end in
  if negb ok_k then (o, false) else
  let k' := match k with Determine => o_m o | Current => o_k o | Val z => z end in
  let ok_l := match l with Val z => (0 <=? z) && (z <=? k') | _ => true end in
  if negb ok_l then (with_lk o (o_l o) k', false) else
  let l' := match l with Determine => 0 | Current => o_l o | Val z => z end in
  (with_lk o l' k', true).

(** Body of the loop of bvbasic.c:299-305: copy column i to column i+diff through
    BVGetColumn/VecCopy/BVRestoreColumn. *)
Definition shift_one (diff i : Z) (ho : heap * obj) : res (heap * obj) :=
  let '(h, o) := ho in
  do ' (o1, x) <- get_column h o i;
  do ' (o2, y) <- get_column h o1 (i + diff);
  do c <- hget h x;
  do h' <- hset h y (fst c);
  do o3 <- restore_column h' o2 i x;
  do o4 <- restore_column h' o3 (i + diff) y;
  Ok (h', o4).

(** bvbasic.c:281-315 BVSetNumConstraints *)
Definition set_num_constraints (h : heap) (o : obj) (nc : Z) : res (heap * obj) :=
  check (0 <=? nc)
  (check ((o_c0 o =? - o_nc o - 1) && (o_c1 o =? - o_nc o - 1))
  (let diff := nc - o_nc o in
   if diff =? 0 then Ok (h, o) else
   let total := o_nc o + o_m o in
   check (0 <? total - nc)
   (do ' (h', o') <-
      (if diff <? 0 then forz 0 (o_m o) (shift_one diff) (h, o) else Ok (h, o));
    let m' := total - nc in
    Ok (h', Obj (o_blk o') (o_off o') nc m' (Z.min (o_l o') m') (Z.min (o_k o') m')
                (- nc - 1) (- nc - 1) (o_s0 o') (o_s1 o') (o_i0 o') (o_i1 o') (o_state o' + 1))))).

(** Resize of the storage: vecs.c:324-347, contig.c:218-246, svec.c:261-290: a new allocation of m
    columns; if copy, the first min(m,bv->m) columns are copied; the old one is freed. *)
Definition resize_store (cs : list cell) (bm m : Z) (copy : bool) : list cell :=
  let n := Z.to_nat (Z.min m bm) in
  if copy then firstn n cs ++ repeat (zero, 0) (Z.to_nat m - n)
  else repeat (zero, 0) (Z.to_nat m).

(** Signature part of BVResize (bvbasic.c:380-403): VecCreateSeq gives zeros. *)
Definition resize_omega (w : option (list Sg)) (bm m : Z) (copy : bool) : res (option (list Sg)) :=
  match w with
  | None => Ok None
  | Some l =>
    if copy then
      let n := Z.to_nat (Z.min m bm) in
      if (n <=? length l)%nat then Ok (Some (firstn n l ++ repeat szero (Z.to_nat m - n))) else UB
    else Ok (Some (repeat sone (Z.to_nat m)))
  end.

(** bvbasic.c:359-410 BVResize for a BV that is not itself a split view: buffer, cached BV and h,c
    are destroyed; bv->L and bv->R are left alone.  The members ci, st, id are left alone too. *)
Definition resize (s : sys) (m : Z) (copy : bool) : res sys :=
  let o := s_par s in
  check (0 <? m)
  (check (o_nc o =? 0)
  (if o_m o =? m then Ok s else
   do cs <- block (s_heap s) (o_blk o);
   do w <- resize_omega (s_omega s) (o_m o) m copy;
   let h' := upd (s_heap s) (o_blk o) None ++ [Some (resize_store cs (o_m o) m copy)] in
   let o' := Obj (length (s_heap s)) 0 (o_nc o) m (Z.min (o_l o) m) (Z.min (o_k o) m)
                 (o_c0 o) (o_c1 o) (o_s0 o) (o_s1 o) (o_i0 o) (o_i1 o) (o_state o + 1) in
   Ok (Sys h' o' (s_L s) (s_R s) (s_lsplit s) (s_indef s) w None))).

(** BV_AllocateSignature (bvimpl.h:210-230): only if indef and not done already. *)
Definition alloc_signature (s : sys) : sys :=
  match s_omega s with
  | None => if s_indef s
            then with_omega s (Some (repeat sone (Z.to_nat (o_nc (s_par s) + o_m (s_par s)))))
            else s
  | Some _ => s
  end.

(** intern[nc+i] = pomega[i], i = 0,1,... (bvbasic.c:670) *)
Fixpoint store_from (w : list Sg) (i : Z) (vs : list Sg) : res (list Sg) :=
  match vs with
  | [] => Ok w
  | v :: r => do w' <- aset w i v; store_from w' (i + 1) r
  end.
(** pomega[i] = intern[nc+i] (bvbasic.c:713) *)
Fixpoint load_from (w : list Sg) (i : Z) (n : nat) : res (list Sg) :=
  match n with
  | O => Ok []
  | S n' => do v <- aget w i; do r <- load_from w (i + 1) n'; Ok (v :: r)
  end.

(** bvbasic.c:652-676 BVSetSignature *)
Definition set_signature (s : sys) (vs : list Sg) : res sys :=
  check (zlen vs =? o_k (s_par s))
  (let s1 := alloc_signature s in
   do s2 <- (if s_indef s1 then
               match s_omega s1 with
               | None => UB
               | Some w => do w' <- store_from w (o_nc (s_par s1)) vs; Ok (with_omega s1 (Some w'))
               end
             else Ok s1);
   Ok (with_par s2 (bump (s_par s2)))).

(** bvbasic.c:696-718 BVGetSignature into a Vec of size n *)
Definition get_signature (s : sys) (n : Z) : res (list Sg) :=
  check (n =? o_k (s_par s))
  (match s_indef s, s_omega s with
   | true, Some w => load_from w (o_nc (s_par s)) (Z.to_nat n)
   | _, _ => Ok (repeat sone (Z.to_nat n))
   end).

(** bvbasic.c:518-541 BVSetMatrix: only the flag indef matters here (the matrix and the cached
    products are in BVCacheModel.v). *)
Definition set_indef (s : sys) (b : bool) : sys :=
  if Bool.eqb b (s_indef s) then s
  else Sys (s_heap s) (bump (s_par s)) (s_L s) (s_R s) (s_lsplit s) b (s_omega s) (s_buf s).

(** bvbasic.c:1889-1911 BVCopyColumn(V,j,i): omega[i] = omega[j], then VecCopy between positions
    nc+j and nc+i (vecs.c:315-322, contig.c:209-216, svec.c:249-259). No range check. *)
Definition copy_column (s : sys) (j i : Z) : res sys :=
  if j =? i then Ok s else
  do w <- match s_omega s with
          | None => Ok None
          | Some l => do v <- aget l j; do l' <- aset l i v; Ok (Some l')
          end;
  do c <- hget (s_heap s) (colpos (s_par s) j);
  do h' <- hset (s_heap s) (colpos (s_par s) i) (fst c);
  Ok (with_par (with_omega (with_heap s h') w) (bump (s_par s))).

(** bvbasic.c:796-812 BVGetBufferVec *)
Definition get_buffer (s : sys) : sys :=
  match s_buf s with
  | None => with_buf s (Some ((o_m (s_par s) + o_nc (s_par s)) * o_m (s_par s)))
  | Some _ => s
  end.
(** bvbasic.c:741-760 BVSetBufferVec with a sequential Vec of size n *)
Definition set_buffer (s : sys) (n : Z) : res sys :=
  check (n =? (o_m (s_par s) + o_nc (s_par s)) * o_m (s_par s)) (Ok (with_buf s (Some n))).

(** Entries of the buffer read or written when column j is orthogonalized (BVOrthogonalizeColumn,
    bvorthog.c:314-343, with h = c = NULL): entries 0..nc+j-1 of its first column (scratch) and
    entries 0..nc+j of its j-th column, leading dimension nc+m (bvimpl.h:289-415). *)
Definition buffer_entries (o : obj) (j : Z) : list Z :=
  let n := Z.to_nat (o_nc o + j) in
  map Z.of_nat (seq 0 n) ++ map (fun i => j * (o_nc o + o_m o) + Z.of_nat i) (seq 0 (S n)).

(** The part of BVOrthogonalizeColumn(bv,j,...) that touches the buffer; the computation itself is
    in GSModel.v. *)
Definition use_buffer (s : sys) (j : Z) : res sys :=
  let o := s_par s in
  check (0 <=? j)
  (check (j <? o_m o)
  (let s1 := alloc_signature (get_buffer s) in
   match s_buf s1 with
   | None => UB
   | Some n => if forallb (fun i => (0 <=? i) && (i <? n)) (buffer_entries o j)
               then Ok (with_par s1 (bump o)) else UB
   end)).

(** bvbasic.c:1913-1941 BVGetSplit_Private: an existing view is kept if its number of columns is the
    one wanted; a new view points into the current storage of the parent, at the beginning (left)
    or at offset lsplit (right) (vecs.c:524-531, contig.c:367-376, svec.c:437-469). *)
Definition split_private (o : obj) (lsplit : Z) (left : bool) (old : option obj) : obj :=
  let ncols := if left then o_nc o + o_l o else o_m o - o_l o in
  let fresh := new_obj (o_blk o) (if left then 0 else lsplit) (o_m o) in
  let v := match old with
           | Some v => if ncols =? o_m v then v else fresh
           | None => fresh
           end in
  let nc := if left then o_nc o else 0 in
  let ci b := if nc =? 0 then b else - nc - 1 in
  Obj (o_blk v) (o_off v) nc (ncols - nc) 0 (if left then o_l o else o_k o - o_l o)
      (ci (o_c0 v)) (ci (o_c1 v)) (o_s0 v) (o_s1 v) (o_i0 v) (o_i1 v) (o_state v).

(** bvbasic.c:1975-1990 BVGetSplit *)
Definition get_split (s : sys) : res sys :=
  let o := s_par s in
  check (negb (o_l o =? 0))
  (check (0 <=? s_lsplit s)
  (check (s_lsplit s =? 0)
  (let ls := o_nc o + o_l o in
   Ok (Sys (s_heap s) o (Some (split_private o ls true (s_L s)))
           (Some (split_private o ls false (s_R s))) ls (s_indef s) (s_omega s) (s_buf s))))).

(** Check on the columns of a view in BVRestoreSplit (bvbasic.c:2018-2019) *)
Definition view_restored (v : option obj) : bool :=
  match v with
  | Some o => (o_c0 o <=? o_nc o - 1) && (o_c1 o <=? o_nc o - 1)
  | None => true
  end.

(** bvbasic.c:2009-2026 BVRestoreSplit, both views given back *)
Definition restore_split (s : sys) : res sys :=
  check (0 <? s_lsplit s)
  (check (view_restored (s_L s))
  (check (view_restored (s_R s))
   (Ok (Sys (s_heap s) (s_par s) (s_L s) (s_R s) 0 (s_indef s) (s_omega s) (s_buf s))))).

(** The three BV objects a program can name. The views can be named only between BVGetSplit and
    BVRestoreSplit. *)
Inductive who := Par | Lv | Rv.
Definition obj_of (s : sys) (w : who) : res obj :=
  match w with
  | Par => Ok (s_par s)
  | Lv => check (0 <? s_lsplit s) (match s_L s with Some o => Ok o | None => Err end)
  | Rv => check (0 <? s_lsplit s) (match s_R s with Some o => Ok o | None => Err end)
  end.
Definition put_obj (s : sys) (w : who) (o : obj) : sys :=
  match w with
  | Par => with_par s o
  | Lv => Sys (s_heap s) (s_par s) (Some o) (s_R s) (s_lsplit s) (s_indef s) (s_omega s) (s_buf s)
  | Rv => Sys (s_heap s) (s_par s) (s_L s) (Some o) (s_lsplit s) (s_indef s) (s_omega s) (s_buf s)
  end.

(** Calls of a program. *)
Inductive op :=
| GetColumn (w : who) (j : Z)
| Read (p : handle)
| Write (p : handle) (v : T)
| RestoreColumn (w : who) (j : Z) (p : handle)
| SetActive (w : who) (l k : iarg)
| SetNumConstraints (nc : Z)
| Resize (m : Z) (copy : bool)
| CopyColumn (j i : Z)
| SetIndef (b : bool)
| SetSignature (vs : list Sg)
| GetSignature (n : Z)
| GetBuffer
| SetBuffer (n : Z)
| Orthogonalize (j : Z)
| GetSplit
| RestoreSplit.

(** What a call returns. *)
Inductive out := Done | Vec (p : handle) | Content (v : T) | Signs (l : list Sg).

(** One call: final state and outcome.  A failed call leaves the state as it was, except
    BVSetActiveColumns. *)
Definition wrap (s : sys) (r : res (sys * out)) : sys * res out :=
  match r with
  | Ok (s', o) => (s', Ok o)
  | Err => (s, Err)
  | UB => (s, UB)
  | Loop => (s, Loop)
  end.

Definition step (s : sys) (c : op) : sys * res out :=
  match c with
  | GetColumn w j =>
      wrap s (do o <- obj_of s w; do ' (o', p) <- get_column (s_heap s) o j;
              Ok (put_obj s w o', Vec p))
  | Read p => wrap s (do c <- hget (s_heap s) p; Ok (s, Content (fst c)))
  | Write p v => wrap s (do h' <- hset (s_heap s) p v; Ok (with_heap s h', Done))
  | RestoreColumn w j p =>
      wrap s (do o <- obj_of s w; do o' <- restore_column (s_heap s) o j p;
              Ok (put_obj s w o', Done))
  | SetActive w l k =>
      match obj_of s w with
      | Ok o => let '(o', ok) := set_active o l k in
                (put_obj s w o', if ok then Ok Done else Err)
      | _ => (s, Err)
      end
  | SetNumConstraints nc =>
      wrap s (do ' (h', o') <- set_num_constraints (s_heap s) (s_par s) nc;
              Ok (with_par (with_heap s h') o', Done))
  | Resize m copy => wrap s (do s' <- resize s m copy; Ok (s', Done))
  | CopyColumn j i => wrap s (do s' <- copy_column s j i; Ok (s', Done))
  | SetIndef b => (set_indef s b, Ok Done)
  | SetSignature vs => wrap s (do s' <- set_signature s vs; Ok (s', Done))
  | GetSignature n => wrap s (do l <- get_signature s n; Ok (s, Signs l))
  | GetBuffer => (get_buffer s, Ok Done)
  | SetBuffer n => wrap s (do s' <- set_buffer s n; Ok (s', Done))
  | Orthogonalize j => wrap s (do s' <- use_buffer s j; Ok (s', Done))
  | GetSplit => wrap s (do s' <- get_split s; Ok (s', Done))
  | RestoreSplit => wrap s (do s' <- restore_split s; Ok (s', Done))
  end.

(** A program: the states and outcomes, in order. *)
Fixpoint run (s : sys) (cs : list op) : sys * list (res out) :=
  match cs with
  | [] => (s, [])
  | c :: r => let '(s', o) := step s c in let '(s'', os) := run s' r in (s'', o :: os)
  end.

End BV.
