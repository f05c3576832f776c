(** Properties of matrix functions: rational functions (C15), agreement with scalar evaluation
    on eigenvectors (C16), parallel modes (C18), method numbers (C32), first column (C33). *)
From mathcomp Require Import all_ssreflect all_algebra.
From mathcomp Require Import zify.
From Verif Require Import Prelude FNModel FNSpec FNMatModel FNMatProofs FNMethProofs.
Set Implicit Arguments. Unset Strict Implicit. Unset Printing Implicit Defensive.
Import GRing.Theory.
Local Open Scope ring_scope.

Section Props.
Variable K : fieldType.
Variable n' : nat.
Notation n := n'.+1.
Notation mat := ('M[K]_n).
Variable slf sdlf : leaf -> K -> res K.
Variable leafmat : leaf -> nat -> option (mat -> res mat).
Variable leafvec : leaf -> nat -> option (mat -> res 'cV[K]_n).
Variable conj : K -> K.
Variable syev : mat -> res (mat * 'rV[K]_n).
Notation ops := (fops slf sdlf).
Notation evaluate_mat := (evaluate_mat slf sdlf leafmat conj syev).
Notation evaluate_vec := (evaluate_vec slf sdlf leafmat leafvec conj syev).
Notation dest a b := (odflt a b).

Lemma tree_active1 h r d f : tree_all (fun ob => active 1 r (f_pmode K ob)) d h f.
Proof.
elim: d f => [|d' IH] // [j|] //=. case: (h_obj K h j) => [ob'|] //=; split=> //.
by case: (f_type K ob') => [[]|].
Qed.
Lemma tree_active0 h size d f : tree_all (fun ob => active size 0 (f_pmode K ob)) d h f.
Proof.
elim: d f => [|d' IH] // [j|] //=. case: (h_obj K h j) => [ob'|] //=; split=> //.
  by rewrite /active; case: (f_pmode K ob'); rewrite orbT.
by case: (f_type K ob') => [[]|].
Qed.
Lemma tree_activeR h size rank d f : tree_all (fun ob => f_pmode K ob = PRedundant) d h f ->
   tree_all (fun ob => active size rank (f_pmode K ob)) d h f.
Proof.
elim: d f => [|d' IH] // [j|] //=. case: (h_obj K h j) => [ob'|] //= [-> H]; split.
  by rewrite /active orbT.
by case: (f_type K ob') H => [[_ _|_|_ f1 f2]|] //= [H1 H2]; split; apply: IH.
Qed.

(** ** C15 *)
(** Scalar evaluation of a rational object: beta*p(alpha*x)/q(alpha*x), an error exactly when
    the denominator vanishes. *)
Theorem C15_rational_scalar h i ob ps qs d (x : K) :
  h_obj K h i = Some ob -> f_type K ob = Some (TRational ps qs) ->
  eval K ops d.+1 h (Some i) x =
    if (upoly qs).[f_alpha K ob * x] == 0 then Err
    else Ok (f_beta K ob * ((upoly ps).[f_alpha K ob * x] / (upoly qs).[f_alpha K ob * x])).
Proof.
move=> E Et; rewrite /= E Et /= /eval_rational -!(horner_poly slf sdlf).
case: qs {Et} => [|q0 qs] /=; first by rewrite oner_eq0 /= divr1.
by case: ifP.
Qed.

(** Matrix evaluation of a rational object (method 0, no symmetry known), in place or not. *)
Theorem C15_rational_matrix h i ob ps qs d a b fresh (ms : nat -> mem K n') rank :
  h_obj K h i = Some ob -> f_type K ob = Some (TRational ps qs) -> f_meth K ob = 0%N ->
  (a < fresh)%N -> (dest a b < fresh)%N ->
  let X := f_alpha K ob *: ms rank a in
  match evaluate_mat d.+1 h 1 false i a b fresh ms rank with
  | Ok m' => horner_mx X (upoly qs) \in unitmx
             /\ m' (dest a b) = f_beta K ob *: (invmx (horner_mx X (upoly qs)) *m horner_mx X (upoly ps))
  | Err => horner_mx X (upoly qs) \notin unitmx
  | _ => False
  end.
Proof.
move=> E Et Em ha hb X. rewrite /FNMatModel.evaluate_mat E Et.
have T : tree_all (fun ob => active 1 rank (f_pmode K ob)) d.+1 h (Some i) by rewrite /= E Et.
have := mat_priv_writes slf sdlf leafmat conj syev false (ms rank) T ha hb.
rewrite [mat_val _ _ _ _ _ _ _ _ _ _]/= E Em Et /= -/X.
rewrite /rational_val. case: qs {Et} => [|q0 qs].
  move=> [m' [-> [/= -> _]]]. rewrite -[1]/(1%:P) horner_mx_C unitmx1. split=> //.
  by rewrite invmx1 mul1mx hornerm_poly.
rewrite /solve_val /check -!hornerm_poly. case: ifP => [Qu|/negbT Qu] /=.
  by move=> [m' [-> [/= -> _]]].
by move=> ->.
Qed.

(** ** C16 *)
Section Contracts.
(** LAPACK syev on a Hermitian matrix given by its lower triangle. *)
Hypothesis syevP : forall (A Q : mat) e, adj conj A = A -> syev (tril A) = Ok (Q, e) ->
  A = Q *m diag_mx e *m adj conj Q /\ adj conj Q *m Q = 1%:M.
(** The dense algorithms of exp, log, sqrt, invsqrt. *)
Hypothesis leafP : forall l meth g (A F : mat) x y v, leafmat l meth = Some g -> g A = Ok F ->
  eigenpair A x v -> slf l x = Ok y -> eigenpair F y v.

Theorem C16_eigenvectors h i d (herm : bool) a b fresh (ms : nat -> mem K n') rank m' x y (v : 'cV[K]_n) :
  (a < fresh)%N -> (dest a b < fresh)%N ->
  (herm -> adj conj (ms rank a) = ms rank a) ->
  evaluate_mat d h 1 herm i a b fresh ms rank = Ok m' ->
  eigenpair (ms rank a) x v ->
  eval K ops d h (Some i) x = Ok y ->
  eigenpair (m' (dest a b)) y v
  /\ (forall l, (l < fresh)%N -> l != dest a b -> m' l = ms rank l).
Proof.
move=> ha hb hA; rewrite /FNMatModel.evaluate_mat.
case E: (h_obj K h i) => [ob|] //. case Et: (f_type K ob) => [t|] // EM Ev Ee.
have T := @tree_active1 h rank.
have := mat_priv_writes slf sdlf leafmat conj syev herm (ms rank) (T d (Some i)) ha hb.
case EV: (mat_val _ _ _ _ _ _ _ _ _ _) => [F| | |] /=; try by move=> E0; rewrite E0 in EM.
move=> [m1 [E1 [E2 E3]]]. move: EM; rewrite E1 /= => -[<-]. split=> //.
rewrite E2. exact: (mat_val_eig syevP leafP hA EV Ev Ee).
Qed.

(** For trees of rational functions the scalar value exists at every eigenvalue. *)
Theorem C16_eigenvalues_in_domain h i d (herm : bool) a b fresh (ms : nat -> mem K n') rank m' x (v : 'cV[K]_n) :
  (a < fresh)%N -> (dest a b < fresh)%N ->
  (herm -> adj conj (ms rank a) = ms rank a) ->
  tree_all (@no_leaf K) d h (Some i) ->
  evaluate_mat d h 1 herm i a b fresh ms rank = Ok m' ->
  eigenpair (ms rank a) x v -> v != 0 ->
  exists y, eval K ops d h (Some i) x = Ok y.
Proof.
move=> ha hb hA TL; rewrite /FNMatModel.evaluate_mat.
case E: (h_obj K h i) => [ob|] //. case Et: (f_type K ob) => [t|] // EM Ev v0.
have T := @tree_active1 h rank.
have := mat_priv_writes slf sdlf leafmat conj syev herm (ms rank) (T d (Some i)) ha hb.
case EV: (mat_val _ _ _ _ _ _ _ _ _ _) => [F| | |] /=; try by move=> E0; rewrite E0 in EM.
move=> _. exact: (mat_val_eig_ex syevP leafP hA EV Ev v0 TL).
Qed.
End Contracts.

(** ** C18 *)
(** If all objects of the tree are redundant, or the root is synchronized, every process gets
    the outcome of a single process (all processes hold the same A). *)
Theorem C18_parallel h i ob d size (herm : bool) a b fresh (ms : nat -> mem K n') rank :
  (a < fresh)%N -> (dest a b < fresh)%N -> (rank < size)%N ->
  h_obj K h i = Some ob ->
  (forall r, ms r a = ms 0%N a) ->
  tree_all (fun ob => f_pmode K ob = PRedundant) d h (Some i) \/ f_pmode K ob = PSync ->
  match evaluate_mat d h 1 herm i a b fresh ms 0 with
  | Ok m0 => exists m', evaluate_mat d h size herm i a b fresh ms rank = Ok m'
                        /\ m' (dest a b) = m0 (dest a b)
                        /\ forall l, (l < fresh)%N -> l != dest a b -> m' l = ms rank l
  | r => evaluate_mat d h size herm i a b fresh ms rank = r
  end.
Proof.
move=> ha hb hr E hA HM; rewrite /FNMatModel.evaluate_mat E.
case Et: (f_type K ob) => [t|] //.
have A1 := @tree_active1 h 0%N. have A0 := tree_active0 h size.
have W1 := mat_priv_writes slf sdlf leafmat conj syev herm (ms 0%N) (A1 d (Some i)) ha hb.
have W0 := mat_priv_writes slf sdlf leafmat conj syev herm (ms 0%N) (A0 d (Some i)) ha hb.
rewrite [(1 < 1)%N]/=.
case EP: ((1 < size)%N && is_sync (f_pmode K ob)); last first.
  have AR : tree_all (fun ob => active size rank (f_pmode K ob)) d h (Some i).
    case: (ltnP 1 size) EP => hs /= EP; last first.
      have -> : size = 1%N by lia. exact: tree_active1.
    apply: tree_activeR; case: HM => // HM. by rewrite HM in EP.
  have := mat_priv_writes slf sdlf leafmat conj syev herm (ms rank) AR ha hb.
  rewrite hA. case: (mat_val _ _ _ _ _ _ _ _ _ _) W1 => [F| | |] /=; try by move=> -> ->.
  by move=> [m1 [-> [E1 _]]] [m2 [-> [E2 E3]]] /=; exists m2; rewrite E1 E2.
case/andP: EP => hs EP. have EPS : f_pmode K ob = PSync by case: (f_pmode K ob) EP.
case: d {HM} W1 W0 => [|d] // W1 W0.
case: rank hr => [|rank] hr.
  case: (mat_val _ _ _ _ _ _ _ _ _ _) W1 W0 => [F| | |] /=; try by move=> -> ->.
  move=> [m1 [-> [E1 _]]] [m2 [-> [E2 E3]]] /=. eexists; split; first by [].
  rewrite mset_same E1 E2; split=> // l Hl Hb. by rewrite mset_other // E3.
have -> : mat_priv slf sdlf leafmat conj syev d.+1 h size rank.+1 herm (Some i) a (dest a b) fresh (ms rank.+1)
          = Ok (ms rank.+1).
  by rewrite /= E EPS /active gtn_eqF.
case: (mat_val _ _ _ _ _ _ _ _ _ _) W1 W0 => [F| | |]; try by move=> /= -> ->.
move=> /= [m1 [-> [E1 _]]] [m2 [-> [E2 E3]]] /=. eexists; split; first by [].
rewrite mset_same E1 E2; split=> // l Hl Hb. by rewrite mset_other.
Qed.

(** ** C33 *)
(** FNEvaluateFunctionMatVec gives the first column of FNEvaluateFunctionMat. *)
Theorem C33_first_column h i d (herm : bool) a b fresh (ms : nat -> mem K n') vs rank m1 m2 v :
  (forall l meth gm gv (A F : mat) v, leafmat l meth = Some gm -> leafvec l meth = Some gv ->
     gm A = Ok F -> gv A = Ok v -> v = col 0 F) ->
  (a < fresh)%N -> (dest a b < fresh)%N ->
  evaluate_mat d h 1 herm i a b fresh ms rank = Ok m1 ->
  evaluate_vec d h 1 herm i a fresh ms vs rank = Ok (m2, v) ->
  v = col 0 (m1 (dest a b)) /\ (forall l, (l < fresh)%N -> m2 l = ms rank l).
Proof.
move=> LP ha hb; rewrite /FNMatModel.evaluate_mat /FNMatModel.evaluate_vec.
case E: (h_obj K h i) => [ob|] //. case Et: (f_type K ob) => [t|] //.
have T := @tree_active1 h rank d (Some i).
have W := mat_priv_writes slf sdlf leafmat conj syev herm (ms rank) T ha hb.
have V := vec_priv_writes slf sdlf leafmat leafvec conj syev herm (ms rank) (vs rank) T ha.
case EV: (mat_val _ _ _ _ _ _ _ _ _ _) W => [F| | |] /=; try by move=> ->.
move=> [m1' [-> [E1 E3]]] /= [<-].
case EW: (vec_val _ _ _ _ _ _ _ _ _ _ _) V => [w| | |] /=; try by move=> ->.
move=> [m2' [-> E2]] /= [<- <-]. split=> //. rewrite E1.
exact: (vec_val_col LP EV EW).
Qed.

(** ** C32 *)
(** With method numbers below FN_MAX_SOLVE and children set, FNEvaluateFunctionMat never reads
    outside of the method tables (nor dereferences NULL). *)
Theorem C32_methods_in_table prog h i d size (herm : bool) a b fresh (ms : nat -> mem K n') rank :
  (forall l x, slf l x <> UB) -> (forall l meth g A, leafmat l meth = Some g -> g A <> UB) ->
  (forall A, syev A <> UB) ->
  steps K ops (empty_heap K) prog = Ok h ->
  (forall f m, List.In (OSetMethod K f m) prog -> (m < 16)%N) ->
  live K h i = true ->
  tree_all (fun ob => match f_type K ob with Some (TCombine _ f1 f2) => f1 <> None /\ f2 <> None | _ => True end)
    d h (Some i) ->
  evaluate_mat d h size herm i a b fresh ms rank <> UB.
Proof.
move=> S1 S2 S3 Hs Hm Hl HT.
have G := steps_good (@empty_good K) Hs Hm.
have U : forall rk m, mat_priv slf sdlf leafmat conj syev d h size rk herm (Some i) a (dest a b) fresh m <> UB.
  move=> rk m; apply: mat_priv_nub => //. by move: Hl; rewrite /live /olive; case: (h_obj K h i).
rewrite /FNMatModel.evaluate_mat. move: Hl; rewrite /live. case E: (h_obj K h i) => [ob|] // _.
case: (f_type K ob) => // _. apply: bind_nub => // m. case: ifP => // _. exact: bind_nub.
Qed.

(** The setter also accepts FN_MAX_SOLVE itself, and the evaluation then reads past the end of
    the tables, whatever the matrix. *)
Theorem C32_set_method_refuted : exists prog h,
  steps K ops (empty_heap K) prog = Ok h /\ live K h 0%N = true
  /\ (forall f m, List.In (OSetMethod K f m) prog -> (m <= 16)%N)
  /\ forall d size a b fresh ms, evaluate_mat d.+1 h size false 0%N a b fresh ms 0 = UB.
Proof.
exists [:: OCreate K; OSetType K 0 NRational; OSetMethod K 0 16]. eexists; do 2 (split; first by []).
split; first by move=> f m [//|[//|[[_ <-]|[]]]].
move=> d size a b fresh ms. rewrite /FNMatModel.evaluate_mat /=. by rewrite /active orbT.
Qed.

(** ** C18, continued: a synchronized child below a redundant parent is not communicated. *)
Theorem C18_sync_child_refuted : exists prog h,
  steps K ops (empty_heap K) prog = Ok h
  /\ forall ms : nat -> mem K n', (forall r, ms r 0%N = 0) -> exists m0 m1,
     evaluate_mat 2 h 2 false 2 0 (Some 1%N) 2 ms 0 = Ok m0
     /\ evaluate_mat 2 h 2 false 2 0 (Some 1%N) 2 ms 1 = Ok m1
     /\ m0 1%N <> m1 1%N.
Proof.
exists [:: OCreate K; OSetType K 0 NRational; OSetParallel K 0 PSync;
           OCreate K; OSetType K 1 NRational;
           OCreate K; OSetType K 2 NCombine; OSetChildren K 2 CAdd 0 1].
eexists; split; first by [].
set h := (X in FNMatModel.evaluate_mat _ _ _ _ _ _ X).
pose ob p t : fnobj K := {| f_alpha := 1; f_beta := 1; f_meth := 0; f_pmode := p; f_type := Some t |}.
have E0 : h_obj K h 0%N = Some (ob PSync (TRational [::] [::])) by [].
have E1 : h_obj K h 1%N = Some (ob PRedundant (TRational [::] [::])) by [].
have E2 : h_obj K h 2%N = Some (ob PRedundant (TCombine CAdd (Some 0%N) (Some 1%N))) by [].
clearbody h => ms HA. rewrite /FNMatModel.evaluate_mat E2.
do 2 eexists. split; [|split].
- rewrite [mat_priv _ _ _ _ _ _ _ _ _ _ _ _ _ _ _]/= E2 /= eqxx /= /basic_mat /combine_mat /= E0 E1 /= /rational_mat /eval_poly eqxx /=. by [].
- rewrite [mat_priv _ _ _ _ _ _ _ _ _ _ _ _ _ _ _]/= E2 /= eqxx /= /basic_mat /combine_mat /= E0 E1 /= /rational_mat /eval_poly eqxx /=. by [].
rewrite /mset /= !scale1r !add0r HA addr0 => /(congr1 (fun M : mat => M - 1%:M)).
rewrite addrK subrr => /matrixP/(_ 0 0)/eqP. by rewrite !mxE eqxx oner_eq0.
Qed.
End Props.

(** ** Examples *)
(** f(x) = 3x/(x-1), evaluated in place at the non-diagonalizable matrix A = [2 0; 1 2]. *)
Definition exA : 'M[rat]_2 := \matrix_(i, j) (if i == j then 2%:R else if (j < i)%N then 1 else 0).
Definition exv : 'cV[rat]_2 := delta_mx 1 0.
Definition no_sleaf : leaf -> rat -> res rat := fun _ _ => Err.
Definition no_leafmat : leaf -> nat -> option ('M[rat]_2 -> res 'M[rat]_2) := fun _ _ => None.
Definition no_leafvec : leaf -> nat -> option ('M[rat]_2 -> res 'cV[rat]_2) := fun _ _ => None.
Definition no_syev : 'M[rat]_2 -> res ('M[rat]_2 * 'rV[rat]_2) := fun _ => Err.
Notation rfops := (fops no_sleaf no_sleaf).
Definition ex_prog : seq (op rat) :=
  [:: OCreate _; OSetType _ 0 NRational; OSetNumerator _ 0 [:: 1; 0]; OSetDenominator _ 0 [:: 1; -1];
      OSetScale _ 0 1 3%:R].

Lemma exA_unit : horner_mx (1 *: exA) (upoly [:: 1; -1 : rat]) \in unitmx.
Proof.
rewrite -hornerm_poly /hornerm /= scale1r mul1mx unitmxE det_trig.
  rewrite big_ord_recl big_ord1 !mxE /=. by [].
apply/is_trig_mxP => i j Hij; rewrite !mxE. case: eqP => [Eij|_]; first by rewrite Eij ltnn in Hij.
by rewrite ltnNge (ltnW Hij) /= mulr0n addr0.
Qed.

Lemma exA_eig : eigenpair exA 2%:R exv.
Proof.
rewrite /eigenpair; apply/matrixP=> i j; rewrite [LHS]mxE big_ord_recl big_ord1 !mxE [j]ord1 /=.
by case: (unliftP ord0 i) => [k ->|->]; rewrite ?[k]ord1 /=.
Qed.

Example ex_C15_C16_C32 : exists h m',
  steps rat rfops (empty_heap rat) ex_prog = Ok h
  /\ evaluate_mat no_sleaf no_sleaf no_leafmat id no_syev 1 h 1 false 0 0 None 1 (fun _ _ => exA) 0 = Ok m'
  /\ eigenpair exA 2%:R exv /\ exv != 0
  /\ eval rat rfops 1 h (Some 0%N) 2%:R = Ok 6%:R
  /\ tree_all (@no_leaf [fieldType of rat]) 1 h (Some 0%N)
  /\ eigenpair (m' 0%N) 6%:R exv.
Proof.
have [h [Es Eh]] : exists h, steps rat rfops (empty_heap rat) ex_prog = Ok h
  /\ h_obj rat h 0%N = Some {| f_alpha := 1; f_beta := 3%:R; f_meth := 0; f_pmode := PRedundant;
     f_type := Some (TRational [:: 1; 0] [:: 1; -1]) |} by eexists; split; reflexivity.
exists h.
have Ee : eval rat rfops 1 h (Some 0%N) 2%:R = Ok 6%:R.
  rewrite (C15_rational_scalar _ _ _ _ Eh (erefl _)).
  rewrite -!(horner_poly no_sleaf no_sleaf). by vm_compute.
have := @C15_rational_matrix [fieldType of rat] 1 no_sleaf no_sleaf no_leafmat id no_syev h 0 _ _ _ 0 0 None 1
   (fun _ _ => exA) 0 Eh (erefl _) (erefl _) (erefl _) (erefl _).
case EM: (evaluate_mat _ _ _ _ _ _ _ _ _ _ _ _ _ _ _) => [m'| | |] //=; last by rewrite exA_unit.
move=> _. exists m'. split=> //. split; first by []. split; first exact: exA_eig. split.
  by apply/eqP => /matrixP/(_ 1 0)/eqP; rewrite !mxE.
split=> //. split; first by rewrite /= Eh.
have P1 : forall (A Q : 'M[rat]_2) e, adj id A = A -> no_syev (tril A) = Ok (Q, e) ->
  A = Q *m diag_mx e *m adj id Q /\ adj id Q *m Q = 1%:M by [].
have P2 : forall l meth g (A F : 'M[rat]_2) x y v, no_leafmat l meth = Some g -> g A = Ok F ->
  eigenpair A x v -> no_sleaf l x = Ok y -> eigenpair F y v by [].
by have [] := C16_eigenvectors P1 P2 (erefl _ : (0 < 1)%N) (erefl _ : (odflt 0 None < 1)%N) _ EM exA_eig Ee.
Qed.

(** FNEvaluateFunctionMatVec on the same object. *)
Lemma bind_pair A B (r : res (A * B)) : bind r (fun '(x, y) => Ok (x, y)) = r.
Proof. by case: r => [[]| | |]. Qed.

Example ex_C33 : exists h m1 m2 v,
  steps rat rfops (empty_heap rat) ex_prog = Ok h
  /\ evaluate_mat no_sleaf no_sleaf no_leafmat id no_syev 1 h 1 false 0 0 None 1 (fun _ _ => exA) 0 = Ok m1
  /\ evaluate_vec no_sleaf no_sleaf no_leafmat no_leafvec id no_syev 1 h 1 false 0 0 1 (fun _ _ => exA)
       (fun _ => 0) 0 = Ok (m2, v)
  /\ v = col 0 (m1 0%N).
Proof.
have [h [Es Eh]] : exists h, steps rat rfops (empty_heap rat) ex_prog = Ok h
  /\ h_obj rat h 0%N = Some {| f_alpha := 1; f_beta := 3%:R; f_meth := 0; f_pmode := PRedundant;
     f_type := Some (TRational [:: 1; 0] [:: 1; -1]) |} by eexists; split; reflexivity.
exists h.
have := @C15_rational_matrix [fieldType of rat] 1 no_sleaf no_sleaf no_leafmat id no_syev h 0 _ _ _ 0 0 None 1
   (fun _ _ => exA) 0 Eh (erefl _) (erefl _) (erefl _) (erefl _).
case EM: (evaluate_mat _ _ _ _ _ _ _ _ _ _ _ _ _ _ _) => [m1| | |] //=; last by rewrite exA_unit.
move=> _. exists m1.
have W := vec_priv_writes no_sleaf no_sleaf no_leafmat no_leafvec id no_syev false
   (fun _ => exA) (0 : 'cV[rat]_2) (@tree_active1 [fieldType of rat] h 0 1 (Some 0%N)) (erefl _ : (0 < 1)%N).
have EV : evaluate_vec no_sleaf no_sleaf no_leafmat no_leafvec id no_syev 1 h 1 false 0 0 1 (fun _ _ => exA)
       (fun _ => 0) 0 = vec_priv no_sleaf no_sleaf no_leafmat no_leafvec id no_syev 1 h 1 0 false (Some 0%N) 0 1 (fun _ => exA) 0.
  rewrite /evaluate_vec Eh. exact: bind_pair.
move: W. rewrite -EV.
have -> : vec_val no_sleaf no_sleaf no_leafmat no_leafvec id no_syev 1 h false (Some 0%N) exA 0
  = Ok (3%:R *: (invmx (horner_mx (1 *: exA) (upoly [:: 1; -1 : rat])) *m col 0 (horner_mx (1 *: exA) (upoly [:: 1; 0 : rat])))).
  have U := exA_unit. rewrite -!hornerm_poly in U *.
  by rewrite /vec_val Eh /= /rational_vec_val /check U.
move=> [m2 [E2 _]]. exists m2; eexists; split=> //. split=> //. split; first exact: E2.
by have [] := C33_first_column (leafvec := no_leafvec) _ (erefl _ : (0 < 1)%N) (erefl _ : (odflt 0 None < 1)%N) EM E2.
Qed.

(** Three processes, synchronized root. *)
Example ex_C18 : exists h m,
  steps rat rfops (empty_heap rat) (ex_prog ++ [:: OSetParallel _ 0 PSync]) = Ok h
  /\ root_mode h 0 = PSync
  /\ evaluate_mat no_sleaf no_sleaf no_leafmat id no_syev 1 h 3 false 0 0 (Some 1%N) 2
       (fun r l => if l == 0%N then exA else r%:R%:M) 2 = Ok m
  /\ m 0%N = exA.
Proof.
have [h [Es Eh]] : exists h, steps rat rfops (empty_heap rat) (ex_prog ++ [:: OSetParallel _ 0 PSync]) = Ok h
  /\ h_obj rat h 0%N = Some {| f_alpha := 1; f_beta := 3%:R; f_meth := 0; f_pmode := PSync;
     f_type := Some (TRational [:: 1; 0] [:: 1; -1]) |} by eexists; split; reflexivity.
exists h.
set ms := (fun r l : nat => _).
have := @C15_rational_matrix [fieldType of rat] 1 no_sleaf no_sleaf no_leafmat id no_syev h 0 _ _ _ 0 0 (Some 1%N) 2
   ms 0 Eh (erefl _) (erefl _) (erefl _) (erefl _).
have := @C18_parallel [fieldType of rat] 1 no_sleaf no_sleaf no_leafmat id no_syev h 0 _ 1 3 false 0 (Some 1%N) 2
   ms 2 (erefl _) (erefl _) (erefl _) Eh (fun _ => erefl _) (or_intror (erefl _)).
case EM: (evaluate_mat _ _ _ _ _ _ _ _ _ _ _ _ _ _ _) => [m1| | |] //=; last by rewrite exA_unit.
move=> [m' [E1 [E2 E3]]] _. exists m'. split=> //. split; first by rewrite /root_mode Eh.
split=> //. by rewrite E3.
Qed.

Print Assumptions C15_rational_scalar.
Print Assumptions C15_rational_matrix.
Print Assumptions C16_eigenvectors.
Print Assumptions C16_eigenvalues_in_domain.
Print Assumptions C18_parallel.
Print Assumptions C18_sync_child_refuted.
Print Assumptions C32_methods_in_table.
Print Assumptions C32_set_method_refuted.
Print Assumptions C33_first_column.
