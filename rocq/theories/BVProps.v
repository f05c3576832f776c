(** Property theorems C19, C20, C21, C26, C27, C28 (basis vectors object). *)
From Coq Require Import ZArith List Bool Lia Permutation.
From Verif Require Import Prelude BVModel BVSpec BVProofs BVProofs2 BVProofs3 BVProofs4 BVProofs5.
Import ListNotations.
Open Scope Z_scope.

Section Props.
Variable T : Type.
Variable zero : T.
Variable Sg : Type.
Variables sone szero : Sg.
Notation sys := (sys T Sg).
Notation op := (op T Sg).
Notation step := (step T zero Sg sone szero).
Notation reach := (reach T zero Sg sone szero).
Notation sreach := (sreach T zero Sg sone szero).
Notation peek := (peek T zero Sg sone szero).
(** What BVGetSizes, BVGetNumConstraints and BVGetActiveColumns return, and the object state. *)
Notation ncols o := (o_m o).
Notation nconstr o := (o_nc o).
Notation par s := (s_par T Sg s).
(** Column numbers currently handed out by an object. *)
Definition is_out (o : obj) (j : Z) : Prop := - nconstr o <= j /\ (j = o_c0 o \/ j = o_c1 o).

(** C19.  For every sequence of calls, the answers a program gets from the object are those of a
    plain numbered family of columns of which at most two can be out ([basis_run]). *)
Theorem C19_columns_refine_basis : forall m s cs,
  bv_create T zero Sg m = Ok s ->
  all_allowed T zero (Basis T 0 m (fun _ => zero) []) cs ->
  client_run T zero Sg sone szero (s, fun _ => None) cs =
  basis_run T zero (Basis T 0 m (fun _ => zero) []) cs.
Proof. intros m s cs E H. eapply run_refines; eauto. eapply sim_create; eauto. Qed.

(** C19.  Restoring a column that is not out is an error, whatever Vec is given, in every state
    reached by a program that does not resize the basis while columns are out. *)
Theorem C19_restore_not_out : forall s j p,
  reach (calm T Sg) s -> ~ is_out (par s) j ->
  step s (RestoreColumn T Sg Par j p) = (s, Err).
Proof.
  intros s j p R H. pose proof (par_ok_reach _ _ _ _ _ _ R) as [W _].
  cbn [BVModel.step obj_of bind]. rewrite (restore_not_out _ _ _ _ p W); [reflexivity|].
  intros Hin. apply H. now apply (outs_in _ _ _ _ W).
Qed.

(** C19.  The object state increases when, and only when, the column was modified while it was out. *)
Theorem C19_change_noticed : forall s j p s1 vs,
  reach (calm T Sg) s -> step s (GetColumn T Sg Par j) = (s1, Ok (Vec T Sg p)) ->
  exists s3, step (writes T zero Sg sone szero s1 p vs) (RestoreColumn T Sg Par j p) = (s3, Ok (Done T Sg)) /\
    o_state (par s3) = o_state (par s) + (if (length vs =? 0)%nat then 0 else 1).
Proof. intros s j p s1 vs R. apply change_noticed. eapply par_ok_reach; eauto. Qed.

(** C20. *)
Theorem C20_active_columns_ordered : forall s w o,
  reach (keeps_order T zero Sg sone szero) s -> obj_of T Sg s w = Ok o ->
  0 <= o_l o <= o_k o /\ o_k o <= ncols o.
Proof. intros s w o R Ho. eapply inv20_obj; eauto. eapply inv20_reach; eauto. Qed.

(** C21. *)
Theorem C21_set_num_constraints : forall s nc,
  reach (calm T Sg) s ->
  let s' := fst (step s (SetNumConstraints T Sg nc)) in
  let old := nconstr (par s) in
  (0 <= nc < old + ncols (par s) -> (forall j, ~ is_out (par s) j) ->
     snd (step s (SetNumConstraints T Sg nc)) = Ok (Done T Sg) /\
     nconstr (par s') = nc /\ ncols (par s') = old + ncols (par s) - nc /\
     (* fewer: the regular columns keep number and content, the first nc constraints are kept *)
     (nc <= old -> forall j, 0 <= j < ncols (par s) -> peek s' Par j = peek s Par j) /\
     (nc <= old -> forall i, 0 <= i < nc -> peek s' Par (- nc + i) = peek s Par (- old + i)) /\
     (* more: the first nc-old regular columns become the last constraints *)
     (old <= nc -> forall i, 0 <= i < old + ncols (par s) -> peek s' Par (- nc + i) = peek s Par (- old + i))) /\
  (~ (0 <= nc < old + ncols (par s) /\ (forall j, ~ is_out (par s) j)) ->
     step s (SetNumConstraints T Sg nc) = (s, Err)).
Proof.
  intros s nc R. pose proof (par_ok_reach _ _ _ _ _ _ R) as I. pose proof I as [W _].
  pose proof (constraints_effect _ zero _ sone szero s nc I) as G. cbn zeta in *.
  assert (Ho : (length (outs (par s)) =? 0)%nat = true <-> forall j, ~ is_out (par s) j).
  { rewrite Nat.eqb_eq. split.
    - intros E j Hj. apply (outs_in _ _ _ _ W) in Hj. destruct (outs (par s)); [auto|discriminate].
    - intros H. destruct (outs (par s)) as [|x r] eqn:E; [auto|]. exfalso. apply (H x).
      apply (outs_in _ _ _ _ W). rewrite E. now left. }
  destruct ((0 <=? nc) && (nc <? o_nc (par s) + o_m (par s)) && (length (outs (par s)) =? 0)%nat) eqn:Eg.
  - destruct G as [G1 [G2 [G3 [G4 [G5 G6]]]]].
    apply andb_true_iff in Eg. destruct Eg as [Eg Eo]. apply andb_true_iff in Eg.
    rewrite Z.leb_le, Z.ltb_lt in Eg. split.
    + intros _ _. do 3 (split; [auto|]). split; [auto|]. split.
      * intros Hle i Hi. rewrite (G5 Hle) by lia. f_equal. lia.
      * intros Hle i Hi. rewrite (G6 Hle) by lia. f_equal. lia.
    + intros H. exfalso. apply H. split; [lia|]. now apply Ho.
  - split; [|auto]. intros Hn Hj. apply Ho in Hj. rewrite Hj in Eg.
    destruct (Z.leb_spec 0 nc), (Z.ltb_spec nc (o_nc (par s) + o_m (par s))); cbn in Eg; (discriminate || lia).
Qed.

(** C26.  While the number of constraints is not reduced after the buffer has been created, every
    column can be orthogonalized without leaving the buffer. *)
Theorem C26_buffer_large_enough : forall s j,
  reach (no_fewer_constraints T Sg) s -> 0 <= j < ncols (par s) ->
  snd (step s (Orthogonalize T Sg j)) = Ok (Done T Sg).
Proof. intros s j R. apply orthogonalize_safe. eapply inv26_reach; eauto. Qed.

(** C27.  Sizes of the views, and every column of a view can be obtained when it is handed out,
    also if the same views had been used before. *)
Theorem C27_split_sizes : forall s s',
  reach (split_domain T Sg) s -> step s (GetSplit T Sg) = (s', Ok (Done T Sg)) ->
  exists L R, obj_of T Sg s' Lv = Ok L /\ obj_of T Sg s' Rv = Ok R /\
    nconstr L = nconstr (par s) /\ ncols L = o_l (par s) /\ o_l L = 0 /\ o_k L = o_l (par s) /\
    nconstr R = 0 /\ ncols R = ncols (par s) - o_l (par s) /\ o_l R = 0 /\ o_k R = o_k (par s) - o_l (par s) /\
    (forall j, - nconstr L <= j < ncols L -> exists v, peek s' Lv j = Some v) /\
    (forall j, 0 <= j < ncols R -> exists v, peek s' Rv j = Some v).
Proof.
  intros s s' R E. destruct (split_ok _ _ _ _ _ _ _ R E) as [vl [vr [A1 [A2 [A3 [A4 [A5 [A6 [A7 [A8 [A9 [B1 [B2 [B3 B4]]]]]]]]]]]]]].
  assert (R' : reach (split_domain T Sg) s').
  { replace s' with (fst (step s (GetSplit T Sg))) by (rewrite E; reflexivity). constructor 2; [auto|exact I]. }
  pose proof (inv27_reach _ _ _ _ _ _ R') as I.
  exists vl, vr. do 10 (split; [auto|]). split.
  - eapply available; eauto.
  - intros j Hj. eapply available; eauto. rewrite A8. lia.
Qed.

(** C27.  Column j of the left view is column j of the parent and column j of the right view is
    column l+j, l being the number of regular columns of the left view: a write through any of the
    three is what the others see there, and nothing else changes. *)
Definition same_place (w1 w2 : who) (nl j i : Z) : bool :=
  match w1, w2 with
  | Lv, Par | Par, Lv => i =? j
  | Rv, Par => i =? nl + j
  | Par, Rv => nl + i =? j
  | _, _ => false
  end.
Theorem C27_views_alias_parent : forall s w1 w2 j p s1 v L,
  reach (split_domain T Sg) s -> obj_of T Sg s Lv = Ok L -> w1 <> w2 ->
  step s (GetColumn T Sg w1 j) = (s1, Ok (Vec T Sg p)) ->
  exists s2, step s1 (Write T Sg p v) = (s2, Ok (Done T Sg)) /\
    forall i, peek s2 w2 i =
      option_map (fun old => if same_place w1 w2 (ncols L) j i then v else old) (peek s w2 i).
Proof.
  intros s w1 w2 j p s1 v L R HL Hw E. pose proof (inv27_reach _ _ _ _ _ _ R) as I.
  assert (Hs : 0 < s_lsplit T Sg s).
  { cbn in HL. destruct (Z.ltb_spec 0 (s_lsplit T Sg s)); [auto|discriminate]. }
  destruct (views _ _ _ I Hs) as [vl [vr [H1 [H2 [H3 [H4 [H5 [H6 [H7 [H8 [H9 [H10 [H11 [H12 H13]]]]]]]]]]]]]].
  assert (vl = L) by congruence; subst vl.
  pose proof (v_off _ _ _ I) as Hoff.
  assert (exists o1 o2, obj_of T Sg s w1 = Ok o1 /\ obj_of T Sg s w2 = Ok o2 /\ o_blk o2 = o_blk o1 /\
     - o_nc o1 <= j < o_m o1 /\
     forall i, peek s w2 i <> None -> (o_off o2 + o_nc o2 + i =? o_off o1 + o_nc o1 + j) = same_place w1 w2 (o_m L) j i)
    as [o1 [o2 [O1 [O2 [Ob [Oj Op]]]]]].
  { assert (Oj : forall o, obj_of T Sg s w1 = Ok o -> - o_nc o <= j < o_m o).
    { intros o Ho. cbn [BVModel.step] in E. rewrite Ho in E. cbn [bind] in E.
      destruct (get_column T (s_heap T Sg s) o j) as [[o' p']| | |] eqn:Eg; cbn in E; try discriminate.
      eapply get_column_wfo in Eg; [|eapply inv27_obj; eauto]. apply Eg. }
    assert (Oi : forall o i, obj_of T Sg s w2 = Ok o -> peek s w2 i <> None -> - o_nc o <= i < o_m o).
    { intros o i Ho Hn. pose proof (inv27_obj _ _ _ _ _ I Ho) as W.
      destruct (wf_cs _ _ _ W) as [cs [Hb _]].
      destruct (peek_spec T zero Sg sone szero s w2 o cs i Ho W Hb) as [P1 _].
      apply guard_range. destruct (guard o i); [auto|]. exfalso. apply Hn. now apply P1. }
    destruct w1, w2; try congruence; eexists _, _;
    (split; [first [reflexivity|eassumption]|]); (split; [first [reflexivity|eassumption]|]);
    (split; [congruence|]); (split; [apply Oj; first [reflexivity|eassumption]|]);
    intros i Hi; cbn [same_place];
    match goal with |- (?a =? ?b) = (?c =? ?d) => destruct (Z.eqb_spec a b), (Z.eqb_spec c d); try lia
                  | |- (?a =? ?b) = false => apply Z.eqb_neq end.
    - pose proof (Oj _ H1). specialize (Oi _ _ H2 Hi). lia.
    - pose proof (Oj _ H2). specialize (Oi _ _ H1 Hi). lia. }
  destruct (write_seen _ zero _ sone szero _ _ _ _ _ _ _ _ v I (not_eq_sym Hw) O1 O2 Ob E) as [s2 [E2 P]].
  exists s2. split; [exact E2|]. intros i. rewrite P.
  destruct (peek s w2 i) as [old|] eqn:Ep; [|reflexivity]. cbn [option_map]. f_equal.
  rewrite Op by congruence. reflexivity.
Qed.

(** C27.  What is seen through a view is what the parent has, at every moment. *)
Theorem C27_views_show_parent : forall s L j u v,
  reach (split_domain T Sg) s -> obj_of T Sg s Lv = Ok L ->
  (peek s Lv j = Some u -> peek s Par j = Some v -> u = v) /\
  (peek s Rv j = Some u -> peek s Par (ncols L + j) = Some v -> u = v).
Proof.
  intros s L j u v R HL. pose proof (inv27_reach _ _ _ _ _ _ R) as I.
  assert (Hs : 0 < s_lsplit T Sg s).
  { cbn in HL. destruct (Z.ltb_spec 0 (s_lsplit T Sg s)); [auto|discriminate]. }
  destruct (views _ _ _ I Hs) as [vl [vr [H1 [H2 [H3 [H4 [H5 [H6 [H7 [H8 [H9 [H10 [H11 [H12 H13]]]]]]]]]]]]]].
  assert (vl = L) by congruence; subst vl. pose proof (v_off _ _ _ I) as Hoff.
  split; eapply same_content; eauto; try reflexivity; lia.
Qed.

(** C27.  BVRestoreSplit reports columns of the right view and columns of the left view with number
    at least the number of constraints that have not been restored. *)
Theorem C27_restore_reports : forall s L R,
  reach (split_domain T Sg) s -> obj_of T Sg s Lv = Ok L -> obj_of T Sg s Rv = Ok R ->
  snd (step s (RestoreSplit T Sg)) = Ok (Done T Sg) <->
  ((forall j, is_out L j -> j < nconstr L) /\ (forall j, ~ is_out R j)).
Proof.
  intros s L R Rc HL HR. pose proof (inv27_reach _ _ _ _ _ _ Rc) as I.
  pose proof (inv27_obj _ _ _ _ _ I HL) as WL. pose proof (inv27_obj _ _ _ _ _ I HR) as WR.
  assert (Hs : 0 < s_lsplit T Sg s).
  { cbn in HL. destruct (Z.ltb_spec 0 (s_lsplit T Sg s)); [auto|discriminate]. }
  destruct (views _ _ _ I Hs) as [vl [vr [H1 [H2 [H3 [H4 [_ [_ [_ [_ [H9 _]]]]]]]]]]].
  assert (vl = L) by congruence; subst vl. assert (vr = R) by congruence; subst vr.
  cbn [BVModel.step]. unfold restore_split, check. rewrite H3, H4.
  replace (0 <? s_lsplit T Sg s) with true by (symmetry; now apply Z.ltb_lt).
  assert (SL : view_restored (Some L) = true <-> forall j, is_out L j -> j < nconstr L).
  { rewrite (view_restored_spec T _ L WL). split; intros H j Hj; apply H; now apply (outs_in _ _ _ _ WL). }
  assert (SR : view_restored (Some R) = true <-> forall j, ~ is_out R j).
  { rewrite (view_restored_spec T _ R WR). split; intros H j Hj.
    - pose proof (H j ltac:(now apply (outs_in _ _ _ _ WR))). unfold is_out in Hj. lia.
    - exfalso. apply (H j). now apply (outs_in _ _ _ _ WR). }
  rewrite <- SL, <- SR.
  destruct (view_restored (Some L)), (view_restored (Some R)); cbn; split; intros H; try discriminate; auto;
  destruct H; discriminate.
Qed.

(** C28. *)
Theorem C28_signature_belongs_to_column : forall s g n,
  sreach (sign_domain T Sg) s g ->
  snd (step s (GetSignature T Sg n)) =
  if n =? o_k (par s) then Ok (Signs T Sg (signs Sg sone (o_k (par s)) (s_indef T Sg s) g)) else Err.
Proof. intros s g n. apply signature_correct. Qed.

End Props.
Print Assumptions C19_columns_refine_basis.
Print Assumptions C19_restore_not_out.
Print Assumptions C19_change_noticed.
Print Assumptions C20_active_columns_ordered.
Print Assumptions C21_set_num_constraints.
Print Assumptions C26_buffer_large_enough.
Print Assumptions C27_split_sizes.
Print Assumptions C27_views_alias_parent.
Print Assumptions C27_views_show_parent.
Print Assumptions C27_restore_reports.
Print Assumptions C28_signature_belongs_to_column.

(** ** Instances and counterexamples: columns and signs are integers. *)
Notation zrun := (run Z 0 Z 1 0).
Notation zstep := (step Z 0 Z 1 0).
Notation zpeek := (peek Z 0 Z 1 0).
Definition new (m : Z) : sys Z Z :=
  match bv_create Z 0 Z m with Ok s => s | _ => Sys Z Z [] (new_obj 0 0 0) None None 0 false None None end.
Definition after (m : Z) (cs : list (op Z Z)) : sys Z Z := fst (zrun (new m) cs).
Definition outcome (m : Z) (cs : list (op Z Z)) (c : op Z Z) := snd (zstep (after m cs) c).
Notation Get w j := (GetColumn Z Z w j) (only parsing).
Notation Wr p v := (Write Z Z p v) (only parsing).
Notation Rest w j p := (RestoreColumn Z Z w j p) (only parsing).
Notation Act w l k := (SetActive Z Z w l k) (only parsing).
Notation NumC n := (SetNumConstraints Z Z n) (only parsing).
(** Sets column i of a basis without constraints to v. *)
Definition put (i v : Z) : list (op Z Z) := [Get Par i; Wr (0%nat, i) v; Rest Par i (0%nat, i)].

(** A program using constraints, two columns at a time, renumbering, copy and resize. *)
Definition ex_calls : list (call Z) :=
  [CGet Z 0; CWrite Z 0 5; CGet Z 2; CWrite Z 2 7; CGet Z 1; CRestore Z 0; CRestore Z 2; CConstraints Z 1;
   CGet Z (-1); CRead Z (-1); CRestore Z (-1); CRestore Z 0; CConstraints Z 0; CResize Z 5 true;
   CCopy Z 2 4; CGet Z 4; CRead Z 4].
Example ex_C19_allowed : all_allowed Z 0 (Basis Z 0 3 (fun _ => 0) []) ex_calls.
Proof. vm_compute. intuition congruence. Qed.
Example ex_C19_run : basis_run Z 0 (Basis Z 0 3 (fun _ => 0) []) ex_calls =
  [AOk Z; AOk Z; AOk Z; AOk Z; AErr Z; AOk Z; AOk Z; AOk Z; AOk Z; AVal Z 5; AOk Z; AErr Z; AOk Z; AOk Z;
   AOk Z; AOk Z; AVal Z 7].
Proof. vm_compute. reflexivity. Qed.
Example ex_C19_state : o_state (s_par Z Z (after 3 (put 1 4))) = 2 /\
  o_state (s_par Z Z (after 3 [Get Par 1; Rest Par 1 (0%nat, 1)])) = 1.
Proof. split; vm_compute; reflexivity. Qed.

(** C19 fails if the basis is resized while a column is out: using the column afterwards is a use
    after free. *)
Theorem C19_resize_dangling_refuted :
  exists m c1 c2, outcome m [] c1 = Ok (Vec Z Z (0%nat, 1)) /\
    outcome m [c1] c2 = Ok (Done Z Z) /\ outcome m [c1; c2] (Wr (0%nat, 1) 9) = UB.
Proof. exists 3, (Get Par 1), (Resize Z Z 5 true). repeat split; vm_compute; reflexivity. Qed.
Print Assumptions C19_resize_dangling_refuted.

Example ex_C20 : let s := after 6 [Act Par (Val 2) (Val 5); NumC 3] in
  o_l (s_par Z Z s) = 2 /\ o_k (s_par Z Z s) = 3 /\ o_m (s_par Z Z s) = 3.
Proof. repeat split; vm_compute; reflexivity. Qed.
(** C20 fails when l is kept (PETSC_CURRENT) and k is set below it: the call succeeds. *)
Theorem C20_current_refuted :
  exists m c1 c2, outcome m [] c1 = Ok (Done Z Z) /\ outcome m [c1] c2 = Ok (Done Z Z) /\
    o_k (s_par Z Z (after m [c1; c2])) < o_l (s_par Z Z (after m [c1; c2])).
Proof.
  exists 4, (Act Par (Val 3) (Val 4)), (Act Par Current (Val 1)). repeat split; vm_compute; reflexivity.
Qed.
Print Assumptions C20_current_refuted.
(** C20 fails after a call that returned an error: k had been stored already. *)
Theorem C20_failed_call_refuted :
  exists m c1 c2, outcome m [] c1 = Ok (Done Z Z) /\ outcome m [c1] c2 = Err /\
    o_k (s_par Z Z (after m [c1; c2])) < o_l (s_par Z Z (after m [c1; c2])).
Proof.
  exists 4, (Act Par (Val 3) (Val 4)), (Act Par (Val 2) (Val 1)). repeat split; vm_compute; reflexivity.
Qed.
Print Assumptions C20_failed_call_refuted.

(** Columns 10,11,12,13; two become constraints, then one of them is given up. *)
Definition ex_fill := put 0 10 ++ put 1 11 ++ put 2 12 ++ put 3 13.
Example ex_C21 :
  let s := after 4 (ex_fill ++ [NumC 2]) in let s' := after 4 (ex_fill ++ [NumC 2; NumC 1]) in
  map (zpeek s Par) [-2; -1; 0; 1; 2] = [Some 10; Some 11; Some 12; Some 13; None] /\
  map (zpeek s' Par) [-2; -1; 0; 1; 2; 3] = [None; Some 10; Some 12; Some 13; Some 13; None].
Proof. split; vm_compute; reflexivity. Qed.

Example ex_C26 : outcome 4 [NumC 1; GetBuffer Z Z; NumC 2] (Orthogonalize Z Z 1) = Ok (Done Z Z).
Proof. vm_compute. reflexivity. Qed.
(** C26 fails when the number of constraints is reduced after the buffer has been created: the basis
    has more columns but the buffer stays. *)
Theorem C26_fewer_constraints_refuted :
  exists m cs j, let s := after m cs in
    (forall n, In n (snd (zrun (new m) cs)) -> n = Ok (Done Z Z)) /\
    0 <= j < o_m (s_par Z Z s) /\ snd (zstep s (Orthogonalize Z Z j)) = UB.
Proof.
  exists 3, [NumC 1; GetBuffer Z Z; NumC 0], 2. split; [|split; [vm_compute; intuition congruence|vm_compute; reflexivity]].
  intros n H. vm_compute in H. intuition congruence.
Qed.
Print Assumptions C26_fewer_constraints_refuted.

(** One constraint (10), left part 11, right part 12,13; the views write, the parent sees it. *)
Definition ex_split := ex_fill ++ [NumC 1; Act Par (Val 1) (Val 3); GetSplit Z Z].
Example ex_C27_domain : reach Z 0 Z 1 0 (split_domain Z Z) (after 4 ex_split).
Proof.
  unfold after, ex_split. set (cs := ex_fill ++ _).
  assert (H : forall cs s, reach Z 0 Z 1 0 (split_domain Z Z) s ->
    (fix ok (s : sys Z Z) (cs : list (op Z Z)) : Prop := match cs with [] => True
       | c :: r => split_domain Z Z s c /\ ok (fst (zstep s c)) r end) s cs ->
    reach Z 0 Z 1 0 (split_domain Z Z) (fst (zrun s cs))).
  { clear. induction cs as [|c cs IH]; intros s R H; [exact R|]. destruct H as [H1 H2].
    cbn [run]. destruct (zstep s c) as [s' o] eqn:E. destruct (zrun s' cs) as [s'' os] eqn:E2.
    cbn [fst]. replace s'' with (fst (zrun s' cs)) by (rewrite E2; reflexivity). apply IH.
    - replace s' with (fst (zstep s c)) by (rewrite E; reflexivity). constructor 2; auto.
    - cbn [fst] in H2. exact H2. }
  apply H; [apply (reach_new _ _ _ _ _ _ 4); reflexivity|]. vm_compute. repeat split; auto.
Qed.
Example ex_C27 :
  let s := after 4 ex_split in
  map (zpeek s Lv) [-1; 0; 1] = [Some 10; Some 11; None] /\
  map (zpeek s Rv) [-1; 0; 1; 2] = [None; Some 12; Some 13; None] /\
  map (zpeek (after 4 (ex_split ++ [Get Rv 0; Wr (0%nat, 2) 99])) Par) [-1; 0; 1; 2] = [Some 10; Some 11; Some 99; Some 13] /\
  outcome 4 (ex_split ++ [Get Rv 0]) (RestoreSplit Z Z) = Err /\
  outcome 4 (ex_split ++ [Get Rv 0; Rest Rv 0 (0%nat, 2)]) (RestoreSplit Z Z) = Ok (Done Z Z).
Proof. repeat split; vm_compute; reflexivity. Qed.

(** C27 fails when the basis is resized between two uses of the views: the views keep pointing to
    the storage that has been freed. *)
Theorem C27_resize_refuted :
  exists m cs, (forall n, In n (snd (zrun (new m) cs)) -> n = Ok (Done Z Z)) /\
    outcome m cs (Get Lv 0) = UB.
Proof.
  exists 4, [Act Par (Val 2) (Val 4); GetSplit Z Z; RestoreSplit Z Z; Resize Z Z 6 true;
             Act Par (Val 2) (Val 6); GetSplit Z Z]. split; [|vm_compute; reflexivity].
  intros n H. vm_compute in H. intuition congruence.
Qed.
Print Assumptions C27_resize_refuted.
(** C27 fails when all constraints are removed between two uses of the views: the left view does not
    hand out its columns any more. *)
Theorem C27_constraints_refuted :
  exists m cs L, (forall n, In n (snd (zrun (new m) cs)) -> n = Ok (Done Z Z)) /\
    obj_of Z Z (after m cs) Lv = Ok L /\ o_nc L <= 0 < o_m L /\ outcome m cs (Get Lv 0) = Err.
Proof.
  exists 4, [NumC 1; Act Par (Val 2) (Val 3); GetSplit Z Z; RestoreSplit Z Z; NumC 0;
             Act Par (Val 2) (Val 4); GetSplit Z Z]. eexists. split.
  { intros n H. vm_compute in H. intuition congruence. }
  split; [vm_compute; reflexivity|]. split; [vm_compute; intuition congruence|vm_compute; reflexivity].
Qed.
Print Assumptions C27_constraints_refuted.
(** A column of the left view that is not restored goes unnoticed when there are constraints. *)
Theorem C27_unrestored_refuted :
  exists m cs L, obj_of Z Z (after m cs) Lv = Ok L /\ is_out L 0 /\
    outcome m cs (RestoreSplit Z Z) = Ok (Done Z Z).
Proof.
  exists 4, [NumC 1; Act Par (Val 2) (Val 3); GetSplit Z Z; Get Lv 0].
  eexists. split; [vm_compute; reflexivity|]. split; [split; cbn; auto; lia|reflexivity].
Qed.
Print Assumptions C27_unrestored_refuted.

Example ex_C28 :
  outcome 3 [NumC 1; SetIndef Z Z true; SetSignature Z Z [-1; 1]; NumC 2; Act Par (Val 0) (Val 1)] (GetSignature Z Z 1)
    = Ok (Signs Z Z [1]) /\
  outcome 3 [SetIndef Z Z true; SetSignature Z Z [1; -1; 1]; CopyColumn Z Z 1 2; Resize Z Z 2 true] (GetSignature Z Z 2)
    = Ok (Signs Z Z [1; -1]).
Proof. split; vm_compute; reflexivity. Qed.
(** C28 fails for a copy when there are constraints: the wrong entry of the signature is copied ... *)
Theorem C28_copy_refuted :
  exists m cs, (forall n, In n (snd (zrun (new m) cs)) -> n = Ok (Done Z Z)) /\
    outcome m cs (GetSignature Z Z 2) = Ok (Signs Z Z [-1; 1]) /\
    outcome m (cs ++ [CopyColumn Z Z 0 1]) (GetSignature Z Z 2) = Ok (Signs Z Z [1; 1]).
Proof.
  exists 3, [NumC 1; SetIndef Z Z true; SetSignature Z Z [-1; 1]]. split; [|split; vm_compute; reflexivity].
  intros n H. vm_compute in H. intuition congruence.
Qed.
Print Assumptions C28_copy_refuted.
(** ... when the basis grows keeping its contents: the new columns have signature 0 ... *)
Theorem C28_grow_refuted :
  exists m cs, (forall n, In n (snd (zrun (new m) cs)) -> n = Ok (Done Z Z)) /\
    outcome m cs (GetSignature Z Z 3) = Ok (Signs Z Z [-1; 1; 0]).
Proof.
  exists 2, [SetIndef Z Z true; SetSignature Z Z [-1; 1]; Resize Z Z 3 true; Act Par (Val 0) (Val 3)].
  split; [|vm_compute; reflexivity]. intros n H. vm_compute in H. intuition congruence.
Qed.
Print Assumptions C28_grow_refuted.
(** ... and when constraints are removed: columns move in the storage, the signature does not. *)
Theorem C28_fewer_constraints_refuted :
  exists m cs, (forall n, In n (snd (zrun (new m) cs)) -> n = Ok (Done Z Z)) /\
    outcome m cs (GetSignature Z Z 2) = Ok (Signs Z Z [-1; 1]) /\
    outcome m (cs ++ [NumC 0; Act Par (Val 0) (Val 2)]) (GetSignature Z Z 2) = Ok (Signs Z Z [1; -1]).
Proof.
  exists 3, [NumC 1; SetIndef Z Z true; SetSignature Z Z [-1; 1]]. split; [|split; vm_compute; reflexivity].
  intros n H. vm_compute in H. intuition congruence.
Qed.
Print Assumptions C28_fewer_constraints_refuted.
