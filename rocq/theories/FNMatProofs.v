(** Proofs about matrix functions. *)
From mathcomp Require Import all_ssreflect all_algebra.
From mathcomp Require Import zify.
From Verif Require Import Prelude FNModel FNMatModel FNSpec.
Set Implicit Arguments. Unset Strict Implicit. Unset Printing Implicit Defensive.
Import GRing.Theory.
Local Open Scope ring_scope.

Section P.
Variable K : fieldType.
Variable n' : nat.
Notation n := n'.+1.
Notation mat := ('M[K]_n).
Variable slf sdlf : leaf -> K -> res K.
Variable leafmat : leaf -> nat -> option (mat -> res mat).
Variable leafvec : leaf -> nat -> option (mat -> res 'cV[K]_n).
Variable conj : K -> K.
Variable syev : mat -> res (mat * 'rV[K]_n).
Notation ops := (fops slf sdlf).
Notation mem := (mem K n').
Notation mpriv := (mat_priv slf sdlf leafmat conj syev).
Notation vpriv := (vec_priv slf sdlf leafmat leafvec conj syev).
Notation symm := (sym_mat conj syev).
Notation symv := (sym_vec conj syev).

(** ** Values *)
Definition hornerm (cs : seq K) (A : mat) : mat :=
  match cs with [::] => 1%:M | c0 :: cs' => foldl (fun P c => P *m A + c%:M) c0%:M cs' end.
Definition solve_val (Q P : mat) : res mat := check (Q \in unitmx) (Ok (invmx Q *m P)).
Definition rational_val (ps qs : seq K) (A : mat) : res mat :=
  match qs with [::] => Ok (hornerm ps A) | _ => solve_val (hornerm qs A) (hornerm ps A) end.
Definition combine_val (ev : option nat -> mat -> res mat) (c : comb) (f1 f2 : option nat) (A : mat) : res mat :=
  match c with
  | CAdd => do X <- ev f1 A; do Y <- ev f2 A; Ok (Y + X)
  | CMul => do X <- ev f1 A; do Y <- ev f2 A; Ok (X *m Y)
  | CDiv => do X <- ev f2 A; do Y <- ev f1 A; solve_val X Y
  | CCompose => do X <- ev f1 A; ev f2 X
  end.
Definition basic_val (ev : option nat -> mat -> res mat) (meth : nat) (t : fntype K) (A : mat) : res mat :=
  match t with
  | TRational ps qs => check (meth == 0)%N (rational_val ps qs A)
  | TLeaf l => match leafmat l meth with None => Err | Some g => g A end
  | TCombine c f1 f2 => check (meth == 0)%N (combine_val ev c f1 f2 A)
  end.
Fixpoint mat_val (fuel : nat) (h : heap K) (herm : bool) (f : option nat) (A : mat) : res mat :=
  match fuel with
  | O => Loop
  | S fuel' =>
      match f with
      | None => UB
      | Some i =>
          match h_obj K h i with
          | None => UB
          | Some ob =>
              if (FN_MAX_SOLVE <= f_meth K ob)%N then UB else
              match f_type K ob with
              | None => Err
              | Some t =>
                  if herm && (f_meth K ob == 0)%N
                  then symm (eval_type K ops (eval K ops fuel' h) t) (f_alpha K ob) (f_beta K ob) A
                  else do F <- basic_val (mat_val fuel' h herm) (f_meth K ob) t (f_alpha K ob *: A);
                       Ok (f_beta K ob *: F)
              end
          end
      end
  end.

(** [r] writes the value [v] to location [b] and nothing else below [fresh]. *)
Definition writes (b fresh : nat) (m : mem) (r : res mem) (v : res mat) : Prop :=
  match v with
  | Ok F => exists m', r = Ok m' /\ m' b = F /\ (forall l, (l < fresh)%N -> l != b -> m' l = m l)
  | Err => r = Err
  | UB => r = UB
  | Loop => r = Loop
  end.

Lemma msetE (m : mem) l X j : mset m l X j = if j == l then X else m j. Proof. by []. Qed.
Lemma mset_same (m : mem) l X : mset m l X l = X. Proof. by rewrite msetE eqxx. Qed.
Lemma mset_other (m : mem) l X j : j != l -> mset m l X j = m j. Proof. by rewrite msetE => /negPf ->. Qed.

Lemma writes_bind b' fr' m1 b fr m r v (k : mem -> res mem) (kv : mat -> res mat) :
  writes b' fr' m1 r v ->
  (forall m' F, v = Ok F -> m' b' = F -> (forall l, (l < fr')%N -> l != b' -> m' l = m1 l) ->
     writes b fr m (k m') (kv F)) ->
  writes b fr m (bind r k) (bind v kv).
Proof.
case: v => [F| | |] /=; try by move=> ->.
by move=> [m' [-> [E1 E2]]] H; apply: H.
Qed.

Lemma writes_frame b fr m m2 r v :
  writes b fr m2 r v -> (forall l, (l < fr)%N -> l != b -> m2 l = m l) -> writes b fr m r v.
Proof.
case: v => [F| | |] //= [m' [-> [E1 E2]]] H; exists m'; do 2 split=> //.
by move=> l Hl Hb; rewrite E2 // H.
Qed.
Lemma writes_less b fr fr' m r v : writes b fr' m r v -> (fr <= fr')%N -> writes b fr m r v.
Proof.
case: v => [F| | |] //= [m' [-> [E1 E2]]] H; exists m'; do 2 split=> //.
by move=> l Hl Hb; rewrite E2 //; lia.
Qed.

Lemma eval_polyE a p w cs (m : mem) : p != a -> w != a -> p != w ->
  eval_poly a p w cs m p = hornerm cs (m a) /\
  (forall l, l != p -> l != w -> eval_poly a p w cs m l = m l).
Proof.
move=> pa wa pw; case: cs => [|c0 cs] /=.
  rewrite mset_same mset_same add0r; split=> // l lp lw; by rewrite !mset_other.
set step := fun (_ : mem) (_ : K) => _.
have: forall (m1 : mem) P, m1 p = P -> m1 a = m a -> (forall l, l != p -> l != w -> m1 l = m l) ->
   foldl step m1 cs p = foldl (fun P c => P *m m a + c%:M) P cs /\
   (forall l, l != p -> l != w -> foldl step m1 cs l = m l).
  elim: cs => [|c cs IH] m1 P Hp Ha Hf //=.
  apply: IH.
  - rewrite /step !mset_same ?mset_same. by rewrite Hp Ha.
  - rewrite /step !mset_other //; by rewrite eq_sym.
  - move=> l lp lw; rewrite /step !mset_other //; exact: Hf.
apply.
- by rewrite !mset_same add0r.
- by rewrite !mset_other // eq_sym.
- by move=> l lp lw; rewrite !mset_other.
Qed.

Lemma lu_solve_writes q p fr (m0 m : mem) : (forall l, (l < fr)%N -> l != p -> m l = m0 l) ->
  writes p fr m0 (lu_solve q p m) (solve_val (m q) (m p)).
Proof.
rewrite /lu_solve /solve_val /check => H; case: ifP => _ //=; exists (mset m p (invmx (m q) *m m p)).
by rewrite mset_same; do 2 split=> //; move=> l Hl Hp; rewrite mset_other // H.
Qed.

Lemma rational_writes ps qs a b fr (m : mem) : (a < fr)%N -> (b < fr)%N ->
  writes b fr m (rational_mat ps qs a b fr m) (rational_val ps qs (m a)).
Proof.
move=> ha hb; rewrite /rational_mat /rational_val.
set p := if a == b then fr else b.
have pa : p != a by rewrite /p; case: ifP => [_|/negbT]; [lia|rewrite eq_sym].
have pw : p != fr.+1 by rewrite /p; case: ifP => _; lia.
have pq : p != fr.+2 by rewrite /p; case: ifP => _; lia.
have wa : fr.+1 != a by lia. have qa : fr.+2 != a by lia. have qw : fr.+2 != fr.+1 by lia.
have [E1 E2] := eval_polyE ps m pa wa pw.
set m1 := eval_poly a p fr.+1 ps m in E1 E2 *.
have fin : forall (m2 : mem) F, m2 p = F -> (forall l, (l < fr)%N -> l != p -> m2 l = m l) ->
   writes b fr m (Ok (if a == b then mset m2 b (m2 p) else m2)) (Ok F).
  move=> m2 F <- H; rewrite /= ; case: (eqVneq a b) => [ab|ab].
  - exists (mset m2 b (m2 p)); rewrite mset_same; do 2 split=> //.
    move=> l Hl lb; rewrite mset_other // H // /p ab eqxx; lia.
  - exists m2; split=> //; split; first by rewrite /p (negPf ab).
    by move=> l Hl lb; rewrite H // /p (negPf ab).
case: qs => [|q0 qs] /=.
  apply: fin => // l Hl lp; apply: E2 => //; lia.
have [Q1 Q2] := eval_polyE (q0 :: qs) m1 qa wa qw.
rewrite E2 in Q1; [|by rewrite eq_sym|lia].
rewrite -/(eval_poly a fr.+2 fr.+1 (q0 :: qs) m1) -/(hornerm (q0 :: qs) (m a)).
set m2 := eval_poly a fr.+2 fr.+1 _ m1 in Q1 Q2 *.
rewrite -Q1 -E1 -(Q2 p) //.
rewrite /lu_solve /solve_val /check; case: ifP => _ //=.
apply: fin; first by rewrite mset_same.
move=> l Hl lp; rewrite mset_other // Q2; [|lia|lia]. apply: E2 => //; lia.
Qed.

Lemma combine_writes ev evm c f1 f2 a b fr (m : mem) :
  (forall f a b fr (m : mem), f = f1 \/ f = f2 -> (a < fr)%N -> (b < fr)%N ->
      writes b fr m (ev f a b fr m) (evm f (m a))) ->
  (a < fr)%N -> (b < fr)%N ->
  writes b fr m (combine_mat ev c f1 f2 a b fr m) (combine_val evm c f1 f2 (m a)).
Proof.
move=> H ha hb; rewrite /combine_mat /combine_val.
have H1 := fun a b fr m => H f1 a b fr m (or_introl (erefl _)).
have H2 := fun a b fr m => H f2 a b fr m (or_intror (erefl _)).
set m1 := mset m fr (m a).
have aw : a != fr by lia. have bw : b != fr by lia.
have M1 : m1 a = m a by rewrite /m1 mset_other.
have F1 : forall l, (l < fr)%N -> m1 l = m l by move=> l Hl; rewrite /m1 mset_other //; lia.
case: c.
- have W1 := H1 a fr fr.+1 m1 ltac:(lia) ltac:(lia); rewrite M1 in W1.
  apply: (writes_bind W1) => m2 X _ EX F2.
  have W2 := H2 a b fr.+1 m2 ltac:(lia) ltac:(lia); rewrite (F2 a) ?M1 in W2; try lia.
  apply: (writes_bind W2) => m3 Y _ EY F3 /=.
  exists (mset m3 b (m3 b + m3 fr)); rewrite mset_same EY F3; [|lia|lia].
  rewrite EX; do 2 split=> //; move=> l Hl lb; rewrite mset_other // F3 ?F2 ?F1 //; lia.
- set m1' := mset m1 fr.+1 (m1 a).
  have M1' : m1' a = m a by rewrite /m1' mset_other //; lia.
  have F1' : forall l, (l < fr)%N -> m1' l = m l by move=> l Hl; rewrite /m1' mset_other ?F1 //; lia.
  have W1 := H1 a fr fr.+2 m1' ltac:(lia) ltac:(lia); rewrite M1' in W1.
  apply: (writes_bind W1) => m2 X _ EX F2.
  have W2 := H2 a fr.+1 fr.+2 m2 ltac:(lia) ltac:(lia); rewrite (F2 a) ?M1' in W2; try lia.
  apply: (writes_bind W2) => m3 Y _ EY F3 /=.
  exists (mset m3 b (m3 fr *m m3 fr.+1)); rewrite mset_same EY F3; [|lia|lia].
  rewrite EX; do 2 split=> //; move=> l Hl lb; rewrite mset_other // F3 ?F2 ?F1' //; lia.
- have W1 := H2 a fr fr.+1 m1 ltac:(lia) ltac:(lia); rewrite M1 in W1.
  apply: (writes_bind W1) => m2 X _ EX F2.
  have W2 := H1 a b fr.+1 m2 ltac:(lia) ltac:(lia); rewrite (F2 a) ?M1 in W2; try lia.
  apply: (writes_bind W2) => m3 Y _ EY F3 /=.
  rewrite -EX -EY -(F3 fr); [|lia|lia]. apply: lu_solve_writes.
  move=> l Hl lb; rewrite F3 ?F2 ?F1 //; lia.
- have W1 := H1 a fr fr.+1 m1 ltac:(lia) ltac:(lia); rewrite M1 in W1.
  apply: (writes_bind W1) => m2 X _ EX F2.
  have W2 := H2 fr b fr.+1 m2 ltac:(lia) ltac:(lia); rewrite EX in W2.
  apply: (@writes_frame b fr m m2); first by apply: writes_less W2 _; lia.
  move=> l Hl lb; rewrite F2 ?F1 //; lia.
Qed.

Lemma basic_writes ev evm meth t a b fr (m : mem) : (meth < FN_MAX_SOLVE)%N ->
  (forall c f1 f2 f a b fr (m : mem), t = TCombine c f1 f2 -> f = f1 \/ f = f2 -> (a < fr)%N -> (b < fr)%N ->
      writes b fr m (ev f a b fr m) (evm f (m a))) ->
  (a < fr)%N -> (b < fr)%N ->
  writes b fr m (basic_mat leafmat ev meth t a b fr m) (basic_val evm meth t (m a)).
Proof.
move=> hm H ha hb; rewrite /basic_mat /basic_val leqNgt hm /=.
case: t H => [ps qs|l|c f1 f2] H.
- rewrite /check; case: ifP => _ //=. exact: rational_writes.
- case: (leafmat l meth) => [g|] //=. case: (g (m a)) => [F| | |] //=.
  exists (mset m b F); rewrite mset_same; do 2 split=> //; move=> l' _ lb; by rewrite mset_other.
- rewrite /check; case: ifP => _ //=. apply: combine_writes => // f a' b' fr' m' Hf. exact: (H c f1 f2).
Qed.

(** FNEvaluateFunctionMat_Private computes the value in place of the destination and leaves
    everything else alone. *)
Lemma mat_priv_writes fuel h size rank herm : forall f a b fr (m : mem),
  tree_all (fun ob => active size rank (f_pmode K ob)) fuel h f ->
  (a < fr)%N -> (b < fr)%N ->
  writes b fr m (mpriv fuel h size rank herm f a b fr m) (mat_val fuel h herm f (m a)).
Proof.
elim: fuel => [|fuel IH] f a b fr m //= T ha hb.
case: f T => [i|] //. case: (h_obj K h i) => [ob|] // [-> T] /=.
case: ifP => // hm. case E: (f_type K ob) T => [t|] T //.
case: ifP => _.
  case: (symm _ _ _ _) => [F| | |] //=.
  exists (mset m b F); rewrite mset_same; do 2 split=> //; move=> l _ lb; by rewrite mset_other.
have hm' : (f_meth K ob < FN_MAX_SOLVE)%N by rewrite ltnNge hm.
have HC : forall c f1 f2 f a b fr (m : mem), t = TCombine c f1 f2 -> f = f1 \/ f = f2 -> (a < fr)%N -> (b < fr)%N ->
      writes b fr m (mpriv fuel h size rank herm f a b fr m) (mat_val fuel h herm f (m a)).
  move=> c f1 f2 f a' b' fr' m' Et Hf; apply: IH. move: T; rewrite Et => -[T1 T2].
  by case: Hf => ->.
have fin : forall m1 : mem, (forall l, (l < fr)%N -> m1 l = m l) ->
   forall a1 fr1, (a1 < fr1)%N -> (fr <= fr1)%N -> m1 a1 = f_alpha K ob *: m a ->
   writes b fr m (do m2 <- basic_mat leafmat (mpriv fuel h size rank herm) (f_meth K ob) t a1 b fr1 m1;
                  Ok (mset m2 b (f_beta K ob *: m2 b)))
     (do F <- basic_val (mat_val fuel h herm) (f_meth K ob) t (f_alpha K ob *: m a); Ok (f_beta K ob *: F)).
  move=> m1 F1 a1 fr1 h1 h2 E1.
  have W := @basic_writes _ _ (f_meth K ob) t a1 b fr1 m1 hm' HC h1 ltac:(lia).
  rewrite E1 in W. apply: (writes_bind W) => m2 F _ EF F2 /=.
  exists (mset m2 b (f_beta K ob *: m2 b)); rewrite mset_same EF; do 2 split=> //.
  move=> l Hl lb; rewrite mset_other // F2 ?F1 //; lia.
case: ifP => [_|/negbFE/eqP Ea].
- apply: fin => //; [move=> l Hl; rewrite mset_other //; lia|by rewrite mset_same].
- apply: fin => //; by rewrite Ea scale1r.
Qed.

(** ** Polynomials *)
Lemma fold_left_foldl A B (f : A -> B -> A) s z : List.fold_left f s z = foldl f z s.
Proof. by elim: s z => [|x s IH] z //=. Qed.

Lemma Poly_rcons cs (c : K) : Poly (rcons (rev cs) c) = Poly (rev cs) + c%:P * 'X^(size cs).
Proof.
apply/polyP=> i; rewrite coefD coef_Poly coefCM coefXn nth_rcons size_rev coef_Poly.
case: (ltngtP i (size cs)) => Hi; rewrite ?mulr0 ?addr0 ?mulr1 //.
- by rewrite nth_default ?size_rev 1?ltnW.
- by rewrite nth_default ?size_rev ?Hi // add0r.
Qed.

Lemma foldl_poly (x : K) cs p : foldl (fun p ci => ci + x * p) p cs = (Poly (rev cs)).[x] + p * x ^+ size cs.
Proof.
elim: cs p => [|c cs IH] p /=; first by rewrite horner0 add0r expr0 mulr1.
rewrite IH rev_cons exprS. 
rewrite Poly_rcons.
rewrite !hornerE hornerXn mulrDl -addrA [x * p]mulrC.
do 2 congr (_ + _); symmetry; exact: mulrA.
Qed.

Lemma horner_poly cs (x : K) : horner K ops cs x = (upoly cs).[x].
Proof.
case: cs => [|c cs] /=; first by rewrite hornerE.
rewrite fold_left_foldl (foldl_poly x cs c).
rewrite rev_cons Poly_rcons.
by rewrite !hornerE hornerXn.
Qed.

Lemma foldl_mx (A : mat) cs P : P *m A = A *m P ->
  foldl (fun P c => P *m A + c%:M) P cs = horner_mx A (Poly (rev cs)) + P *m A ^+ size cs.
Proof.
elim: cs P => [|c cs IH] P cPA /=; first by rewrite rmorph0 add0r expr0 mulmx1.
rewrite IH; last by rewrite mulmxDl mulmxDr mulmxA -cPA scalar_mxC.
rewrite rev_cons exprS.
rewrite Poly_rcons.
rewrite rmorphD rmorphM /= horner_mx_C rmorphX /= horner_mx_X mulmxDl -addrA [_ *m _ + c%:M *m _]addrC mulmxA.
by rewrite mulmxE.
Qed.

Lemma hornerm_poly cs (A : mat) : hornerm cs A = horner_mx A (upoly cs).
Proof.
case: cs => [|c cs]; first by rewrite /upoly -[RHS]/(horner_mx A 1%:P) horner_mx_C.
rewrite /hornerm /upoly.
rewrite foldl_mx; last by rewrite scalar_mxC.
rewrite rev_cons Poly_rcons.
by rewrite rmorphD rmorphM /= horner_mx_C rmorphX /= horner_mx_X.
Qed.

(** ** Eigenvectors *)
Notation eigenpair := (@eigenpair K n).

Lemma eig_scale A x v (c : K) : eigenpair A x v -> eigenpair (c *: A) (c * x) v.
Proof. by rewrite /FNSpec.eigenpair => E; rewrite -scalemxAl E scalerA. Qed.
Lemma eig_hornerm A x v cs : eigenpair A x v -> eigenpair (hornerm cs A) (horner K ops cs x) v.
Proof.
rewrite /FNSpec.eigenpair => E; case: cs => [|c cs] /=; first by rewrite mul1mx scale1r.
rewrite fold_left_foldl.
have gen : forall (P : mat) (p : K), P *m v = p *: v ->
    foldl (fun P c => P *m A + c%:M) P cs *m v = foldl (fun p ci => ci + x * p) p cs *: v; last first.
  by apply: gen; rewrite mul_scalar_mx.
elim: cs => [|d cs IH] P p HP //=. apply: IH.
rewrite mulmxDl -mulmxA E -scalemxAr HP mul_scalar_mx scalerA -scalerDl. by rewrite addrC.
Qed.
Lemma eig_solve Q P q p v : q != 0 -> Q \in unitmx -> eigenpair Q q v -> eigenpair P p v ->
  eigenpair (invmx Q *m P) (p / q) v.
Proof.
rewrite /FNSpec.eigenpair => q0 Qu EQ EP. rewrite -mulmxA EP -scalemxAr.
have : invmx Q *m (Q *m v) = invmx Q *m (q *: v) by rewrite EQ.
rewrite mulmxA mulVmx // mul1mx -scalemxAr => {2}->.
by rewrite scalerA -mulrA mulVf // mulr1.
Qed.
Lemma eig_nz Q q v : v != 0 -> Q \in unitmx -> eigenpair Q q v -> q != 0.
Proof.
rewrite /FNSpec.eigenpair => v0 Qu EQ; apply: contraNneq v0 => q0; rewrite q0 scale0r in EQ.
by rewrite -(mul1mx v) -(mulVmx Qu) -mulmxA EQ mulmx0.
Qed.

(** Contract of LAPACK syev. *)
Notation adj := (@adj K conj n).
Hypothesis syevP : forall A Q e, adj A = A -> syev (tril A) = Ok (Q, e) ->
  A = Q *m diag_mx e *m adj Q /\ adj Q *m Q = 1%:M.

Lemma mapm_ok (f : K -> res K) (xs ys : seq K) : mapm f xs = Ok ys -> size ys = size xs /\
  forall i, (i < size xs)%N -> f (nth 0 xs i) = Ok (nth 0 ys i).
Proof.
elim: xs ys => [|x xs IH] ys /=; first by case=> <-.
case E: (f x) => [y| | |] //=. case E2: (mapm f xs) => [zs| | |] //= [<-].
have [S H] := IH zs E2. split; first by rewrite /= S.
by case=> [|i] //= Hi; apply: H.
Qed.

Lemma sym_eig ev al be A F x v : adj A = A -> symm ev al be A = Ok F -> eigenpair A x v ->
  (forall y, ev (al * x) = Ok y -> eigenpair F (be * y) v) /\
  (v != 0 -> exists y, ev (al * x) = Ok y).
Proof.
move=> hA; rewrite /sym_mat; case E: (syev (tril A)) => [[Q e]| | |] //=.
have [EA EQ] := syevP hA E.
rewrite /sym_w. case E2: (mapm _ _) => [ys| | |] //= [<-] Ev.
have [Sy Hy] := mapm_ok E2.
have QQ : Q *m adj Q = 1%:M by apply: mulmx1C.
set u := adj Q *m v.
have vE : v = Q *m u by rewrite /u mulmxA QQ mul1mx.
have Hu : diag_mx e *m u = x *: u.
  have : adj Q *m (A *m v) = x *: u by rewrite Ev -scalemxAr.
  by rewrite {1}EA -!mulmxA -/u mulmxA EQ mul1mx.
have Hi : forall i, e 0 i * u i 0 = x * u i 0.
  by move=> i; move/matrixP/(_ i 0): Hu; rewrite mul_diag_mx !mxE.
have evi : forall i : 'I_n, ev (al * e 0 i) = Ok (nth 0 ys i).
  move=> i. have := Hy i. rewrite size_map size_enum_ord => /(_ (ltn_ord i)).
  by rewrite (nth_map i) ?size_enum_ord // nth_ord_enum.
split.
- move=> y Hyv. rewrite /FNSpec.eigenpair -mulmxA.
  have -> : (\matrix_(i, j) (conj (Q j i) * be * ys`_i)) *m v = (be * y) *: u.
    apply/matrixP => i j; rewrite !ord1 [in RHS]mxE.
    have -> : ((\matrix_(i0, j0) (conj (Q j0 i0) * be * ys`_i0)) *m v) i 0 = be * ys`_i * u i 0.
      rewrite /u !mxE mulr_sumr; apply: eq_bigr => k _; rewrite !mxE.
      by rewrite -[conj _ * be * _]mulrA [conj _ * _]mulrC -!mulrA.
    have [u0|u0] := eqVneq (u i 0) 0; first by rewrite u0 !mulr0.
    have xe : e 0 i = x by apply: (mulIf u0); rewrite Hi.
    have := evi i; rewrite xe Hyv => -[<-] //.
  by rewrite -scalemxAr -vE.
- move=> v0. have : u != 0 by apply: contraNneq v0 => u0; rewrite vE u0 mulmx0.
  case/matrix0Pn => i [j]; rewrite ord1 => u0.
  have xe : e 0 i = x by apply: (mulIf u0); rewrite Hi.
  by exists (ys`_i); rewrite -xe.
Qed.

Lemma bind_inv A B (r : res A) (k : A -> res B) y : bind r k = Ok y -> exists a, r = Ok a /\ k a = Ok y.
Proof. by case: r => //= a E; exists a. Qed.

(** Contract of the dense algorithms of the leaf types. *)
Hypothesis leafP : forall l meth g A F x y v, leafmat l meth = Some g -> g A = Ok F ->
  eigenpair A x v -> slf l x = Ok y -> eigenpair F y v.

Lemma mat_val_eig fuel h (herm : bool) : forall f A F x y v, (herm -> adj A = A) ->
  mat_val fuel h herm f A = Ok F -> eigenpair A x v -> eval K ops fuel h f x = Ok y ->
  eigenpair F y v.
Proof.
elim: fuel => [|fuel IH] f A F x y v hA //=.
case: f => [i|] //. case E: (h_obj K h i) => [ob|] //. case: ifP => // hm.
case Et: (f_type K ob) => [t|] //.
case: ifP => Hs.
  case/andP: Hs => hh _ ES Ev.
  move=> EZ; have [z [Ez [<-]]] := bind_inv EZ.
  have [S _] := sym_eig (hA hh) ES Ev. exact: S.
move=> E3 Ev E4; have [G [EG [<-]]] := bind_inv E3; have [z [Ez [<-]]] := bind_inv E4 => {E3 E4}.
suff : eigenpair G z v by rewrite /FNSpec.eigenpair -scalemxAl => ->; rewrite scalerA.
have {Ev} := eig_scale (f_alpha K ob) Ev.
move: (f_alpha K ob *: A) (f_alpha K ob * x) EG Ez => B w.
case: t {Et} => [ps qs|l|c f1 f2] /=.
- rewrite /check; case: ifP => // _. rewrite /rational_val /eval_rational.
  case: qs => [|q0 qs]; first by move=> [<-] [<-]; apply: eig_hornerm.
  rewrite /solve_val /check. case: ifP => // Qu [<-]. case: ifP => // /negbT Q0 [<-] Ev.
  exact: (eig_solve Q0 Qu (eig_hornerm (q0 :: qs) Ev) (eig_hornerm ps Ev)).
- case El: (leafmat l _) => [g|] //= Eg Es Ev. exact: (leafP El Eg Ev Es).
- rewrite /check; case: ifP => // m0.
  have nh : herm = false by move: Hs; rewrite m0 andbT.
  rewrite nh in IH *.
  have IH' : forall f A F x y v, mat_val fuel h false f A = Ok F -> eigenpair A x v ->
     eval K ops fuel h f x = Ok y -> eigenpair F y v.
    by move=> f A' F' x' y' v' H1 H2 H3; apply: (IH f A' F' x' y' v').
  case: c => /= EG EZ Ev.
  + have [X [EX EG2]] := bind_inv EG; have [Y [EY [<-]]] := bind_inv EG2.
    have [a [Ea EZ2]] := bind_inv EZ; have [b [Eb [<-]]] := bind_inv EZ2.
    rewrite /FNSpec.eigenpair mulmxDl (IH' _ _ _ _ _ _ EX Ev Ea) (IH' _ _ _ _ _ _ EY Ev Eb) -scalerDl. by rewrite addrC.
  + have [X [EX EG2]] := bind_inv EG; have [Y [EY [<-]]] := bind_inv EG2.
    have [a [Ea EZ2]] := bind_inv EZ; have [b [Eb [<-]]] := bind_inv EZ2.
    rewrite /FNSpec.eigenpair -mulmxA (IH' _ _ _ _ _ _ EY Ev Eb) -scalemxAr (IH' _ _ _ _ _ _ EX Ev Ea) scalerA. by rewrite mulrC.
  + have [X [EX EG2]] := bind_inv EG; have [Y [EY EF]] := bind_inv EG2.
    have [a [Ea EZ2]] := bind_inv EZ; have [b [Eb EZ3]] := bind_inv EZ2.
    move: EZ3 EF; case: ifP => // /negbT b0 [<-]; rewrite /solve_val /check; case: ifP => // Xu [<-].
    apply: eig_solve => //; [exact: (IH' _ _ _ _ _ _ EX Ev Eb)|exact: (IH' _ _ _ _ _ _ EY Ev Ea)].
  + have [X [EX EF]] := bind_inv EG; have [a [Ea Eb]] := bind_inv EZ.
    have E1 := IH' _ _ _ _ _ _ EX Ev Ea. exact: (IH' _ _ _ _ _ _ EF E1 Eb).
Qed.

(** Without leaf functions, the matrix function is defined only if the scalar function is
    defined at every eigenvalue. *)
Lemma mat_val_eig_ex fuel h (herm : bool) : forall f A F x v, (herm -> adj A = A) ->
  mat_val fuel h herm f A = Ok F -> eigenpair A x v -> v != 0 -> tree_all (@no_leaf K) fuel h f ->
  exists y, eval K ops fuel h f x = Ok y.
Proof.
elim: fuel => [|fuel IH] f A F x v hA //=.
case: f => [i|] //. case E: (h_obj K h i) => [ob|] //. case: ifP => // hm.
rewrite /no_leaf. case Et: (f_type K ob) => [t|] //.
case: ifP => Hs.
  case/andP: Hs => hh _ ES Ev v0 _.
  have [_ S] := sym_eig (hA hh) ES Ev. have [y ->] := S v0. by exists (f_beta K ob * y).
move=> E3 Ev v0 T; have [G [EG _]] := bind_inv E3 => {E3}.
suff [z ->] : exists z, eval_type K ops (eval K ops fuel h) t (f_alpha K ob * x) = Ok z by exists (f_beta K ob * z).
have {Ev} := eig_scale (f_alpha K ob) Ev.
move: (f_alpha K ob *: A) (f_alpha K ob * x) EG => B w.
case: t {Et} T => [ps qs|l|c f1 f2] /=; last first; [|by case|].
- rewrite /check; case: ifP => // m0.
  have nh : herm = false by move: Hs; rewrite m0 andbT.
  rewrite nh in IH *. move=> [_ [T1 T2]].
  have IH1 : forall A F x v, mat_val fuel h false f1 A = Ok F -> eigenpair A x v -> v != 0 ->
     exists y, eval K ops fuel h f1 x = Ok y /\ eigenpair F y v.
    move=> A' F' x' v' H1 H2 H3; have [y Ey] := IH f1 A' F' x' v' ltac:(done) H1 H2 H3 T1.
    by exists y; split=> //; apply: (mat_val_eig _ H1 H2 Ey).
  have IH2 : forall A F x v, mat_val fuel h false f2 A = Ok F -> eigenpair A x v -> v != 0 ->
     exists y, eval K ops fuel h f2 x = Ok y /\ eigenpair F y v.
    move=> A' F' x' v' H1 H2 H3; have [y Ey] := IH f2 A' F' x' v' ltac:(done) H1 H2 H3 T2.
    by exists y; split=> //; apply: (mat_val_eig _ H1 H2 Ey).
  case: c => /= EG Ev.
  + have [X [EX EG2]] := bind_inv EG; have [Y [EY _]] := bind_inv EG2.
    have [a [-> _]] := IH1 _ _ _ _ EX Ev v0; have [b [-> _]] := IH2 _ _ _ _ EY Ev v0. by exists (a + b).
  + have [X [EX EG2]] := bind_inv EG; have [Y [EY _]] := bind_inv EG2.
    have [a [-> _]] := IH1 _ _ _ _ EX Ev v0; have [b [-> _]] := IH2 _ _ _ _ EY Ev v0. by exists (a * b).
  + have [X [EX EG2]] := bind_inv EG; have [Y [EY EF]] := bind_inv EG2.
    have [a [-> _]] := IH1 _ _ _ _ EY Ev v0; have [b [-> Eb]] := IH2 _ _ _ _ EX Ev v0.
    move: EF; rewrite /solve_val /check; case: ifP => // Xu _ /=.
    rewrite (negPf (eig_nz v0 Xu Eb)). by exists (a / b).
  + have [X [EX EF]] := bind_inv EG.
    have [a [-> Ea]] := IH1 _ _ _ _ EX Ev v0. rewrite /=. have [b [-> _]] := IH2 _ _ _ _ EF Ea v0. by exists b.
- rewrite /check; case: ifP => // _ _. rewrite /rational_val /eval_rational.
  case: qs => [|q0 qs]; first by move=> _ _; exists (horner K ops ps w).
  rewrite /solve_val /check. case: ifP => // Qu _ Ev.
  have q00 : horner K ops (q0 :: qs) w == 0 = false by apply/negbTE/(eig_nz v0 Qu (eig_hornerm (q0 :: qs) Ev)).
  exists (horner K ops ps w / horner K ops (q0 :: qs) w). by rewrite -[s_eqb _ _ _ _]/(_ == _) q00.
Qed.

(** ** First column *)
Definition rational_vec_val (ps qs : seq K) (A : mat) : res 'cV[K]_n :=
  match qs with
  | [::] => Ok (col 0 (hornerm ps A))
  | _ => check (hornerm qs A \in unitmx) (Ok (invmx (hornerm qs A) *m col 0 (hornerm ps A)))
  end.
Definition combine_vec_val (ev : option nat -> mat -> res mat) (evv : option nat -> mat -> 'cV[K]_n -> res 'cV[K]_n)
    (c : comb) (f1 f2 : option nat) (A : mat) (v : 'cV[K]_n) : res 'cV[K]_n :=
  match c with
  | CAdd => do w <- evv f1 A 0; do v <- evv f2 A v; Ok (v + w)
  | CMul => do Z <- ev f1 A; do w <- evv f2 A 0; Ok (Z *m w)
  | CDiv => do Z <- ev f2 A; do w <- evv f1 A 0; check (Z \in unitmx) (Ok (invmx Z *m w))
  | CCompose => do Z <- ev f1 A; evv f2 Z v
  end.
Definition basic_vec_val (ev : option nat -> mat -> res mat) (evv : option nat -> mat -> 'cV[K]_n -> res 'cV[K]_n)
    (meth : nat) (t : fntype K) (A : mat) (v : 'cV[K]_n) : res 'cV[K]_n :=
  let default := do F <- basic_val ev meth t A; Ok (col 0 F) in
  match t with
  | TRational ps qs => if meth == 0%N then rational_vec_val ps qs A else default
  | TLeaf l => match leafvec l meth with Some g => g A | None => default end
  | TCombine c f1 f2 => if meth == 0%N then combine_vec_val ev evv c f1 f2 A v else default
  end.
Fixpoint vec_val (fuel : nat) (h : heap K) (herm : bool) (f : option nat) (A : mat) (v : 'cV[K]_n) : res 'cV[K]_n :=
  match fuel with
  | O => Loop
  | S fuel' =>
      match f with
      | None => UB
      | Some i =>
          match h_obj K h i with
          | None => UB
          | Some ob =>
              if (FN_MAX_SOLVE <= f_meth K ob)%N then UB else
              match f_type K ob with
              | None => Err
              | Some t =>
                  if herm && (f_meth K ob == 0)%N
                  then symv (eval_type K ops (eval K ops fuel' h) t) (f_alpha K ob) (f_beta K ob) A
                  else do v <- basic_vec_val (mat_val fuel' h herm) (vec_val fuel' h herm) (f_meth K ob) t
                                 (f_alpha K ob *: A) v;
                       Ok (f_beta K ob *: v)
              end
          end
      end
  end.

Definition writesv (fresh : nat) (m : mem) (r : res (mem * 'cV[K]_n)) (v : res 'cV[K]_n) : Prop :=
  match v with
  | Ok w => exists m', r = Ok (m', w) /\ (forall l, (l < fresh)%N -> m' l = m l)
  | Err => r = Err
  | UB => r = UB
  | Loop => r = Loop
  end.

Lemma writesv_bind b' fr' m1 fr m r v (k : mem -> res (mem * 'cV[K]_n)) (kv : mat -> res 'cV[K]_n) :
  writes b' fr' m1 r v ->
  (forall m' F, v = Ok F -> m' b' = F -> (forall l, (l < fr')%N -> l != b' -> m' l = m1 l) ->
     writesv fr m (k m') (kv F)) ->
  writesv fr m (bind r k) (bind v kv).
Proof.
case: v => [F| | |] /=; try by move=> ->.
by move=> [m' [-> [E1 E2]]] H; apply: H.
Qed.
Lemma writesv_bindv fr' m1 fr m r v (k : mem * 'cV[K]_n -> res (mem * 'cV[K]_n)) (kv : 'cV[K]_n -> res 'cV[K]_n) :
  writesv fr' m1 r v ->
  (forall m' w, v = Ok w -> (forall l, (l < fr')%N -> m' l = m1 l) -> writesv fr m (k (m', w)) (kv w)) ->
  writesv fr m (bind r k) (bind v kv).
Proof.
case: v => [F| | |] /=; try by move=> ->.
by move=> [m' [-> E2]] H; apply: H.
Qed.

Lemma rational_vec_writes ps qs a fr (m : mem) : (a < fr)%N ->
  writesv fr m (rational_vec ps qs a fr m) (rational_vec_val ps qs (m a)).
Proof.
move=> ha; rewrite /rational_vec /rational_vec_val.
have pa : fr != a by lia. have pw : fr != fr.+1 by lia. have pq : fr != fr.+2 by lia.
have wa : fr.+1 != a by lia. have qa : fr.+2 != a by lia. have qw : fr.+2 != fr.+1 by lia.
have [E1 E2] := eval_polyE ps m pa wa pw.
set m1 := eval_poly a fr fr.+1 ps m in E1 E2 *.
case: qs => [|q0 qs].
  rewrite /= -E1; exists m1; split=> // l Hl; apply: E2; lia.
have [Q1 Q2] := eval_polyE (q0 :: qs) m1 qa wa qw.
rewrite E2 in Q1; [|by rewrite eq_sym|lia].
set m2 := eval_poly a fr.+2 fr.+1 _ m1 in Q1 Q2 *.
rewrite -Q1 -E1 -(Q2 fr) // /check. case: ifP => _ //=.
exists m2; split=> // l Hl; rewrite Q2; [|lia|lia]. apply: E2; lia.
Qed.

Lemma combine_vec_writes ev evm evv evvm c f1 f2 a fr (m : mem) v :
  (forall f a b fr (m : mem), f = f1 \/ f = f2 -> (a < fr)%N -> (b < fr)%N ->
      writes b fr m (ev f a b fr m) (evm f (m a))) ->
  (forall f a fr (m : mem) v, f = f1 \/ f = f2 -> (a < fr)%N ->
      writesv fr m (evv f a fr m v) (evvm f (m a) v)) ->
  (a < fr)%N ->
  writesv fr m (combine_vec ev evv c f1 f2 a fr m v) (combine_vec_val evm evvm c f1 f2 (m a) v).
Proof.
move=> H HV ha; rewrite /combine_vec /combine_vec_val.
have H1 := fun a b fr m => H f1 a b fr m (or_introl (erefl _)).
have H2 := fun a b fr m => H f2 a b fr m (or_intror (erefl _)).
have V1 := fun a fr m v => HV f1 a fr m v (or_introl (erefl _)).
have V2 := fun a fr m v => HV f2 a fr m v (or_intror (erefl _)).
set m1 := mset m fr (m a).
have aw : a != fr by lia.
have M1 : m1 a = m a by rewrite /m1 mset_other.
have F1 : forall l, (l < fr)%N -> m1 l = m l by move=> l Hl; rewrite /m1 mset_other //; lia.
case: c.
- apply: (writesv_bindv (V1 a fr m 0 ha)) => m2 w _ F2.
  have W2 := V2 a fr m2 v ha; rewrite (F2 a) // in W2.
  apply: (writesv_bindv W2) => m3 u _ F3 /=.
  by exists m3; split=> // l Hl; rewrite F3 ?F2.
- have W1 := H1 a fr fr.+1 m1 ltac:(lia) ltac:(lia); rewrite M1 in W1.
  apply: (writesv_bind W1) => m2 X _ EX F2.
  have W2 := V2 a fr.+1 m2 0 ltac:(lia); rewrite (F2 a) ?M1 in W2; try lia.
  apply: (writesv_bindv W2) => m3 u _ F3 /=.
  exists m3; rewrite F3 ?EX; [|lia]. split=> // l Hl; rewrite F3 ?F2 ?F1 //; lia.
- have W1 := H2 a fr fr.+1 m1 ltac:(lia) ltac:(lia); rewrite M1 in W1.
  apply: (writesv_bind W1) => m2 X _ EX F2.
  have W2 := V1 a fr.+1 m2 0 ltac:(lia); rewrite (F2 a) ?M1 in W2; try lia.
  apply: (writesv_bindv W2) => m3 u _ F3.
  rewrite /check F3 ?EX; [|lia]. case: ifP => _ //=.
  exists m3; split=> // l Hl; rewrite F3 ?F2 ?F1 //; lia.
- have W1 := H1 a fr fr.+1 m1 ltac:(lia) ltac:(lia); rewrite M1 in W1.
  apply: (writesv_bind W1) => m2 X _ EX F2.
  have := V2 fr fr.+1 m2 v ltac:(lia); rewrite EX.
  rewrite /writesv; case: (evvm f2 X v) => [u| | |] //= [m3 [-> F3]].
  exists m3; split=> // l Hl; rewrite F3 ?F2 ?F1 //; lia.
Qed.

Lemma basic_vec_writes ev evm evv evvm meth t a fr (m : mem) v : (meth < FN_MAX_SOLVE)%N ->
  (forall c f1 f2 f a b fr (m : mem), t = TCombine c f1 f2 -> f = f1 \/ f = f2 -> (a < fr)%N -> (b < fr)%N ->
      writes b fr m (ev f a b fr m) (evm f (m a))) ->
  (forall c f1 f2 f a fr (m : mem) v, t = TCombine c f1 f2 -> f = f1 \/ f = f2 -> (a < fr)%N ->
      writesv fr m (evv f a fr m v) (evvm f (m a) v)) ->
  (a < fr)%N ->
  writesv fr m (basic_vec leafmat leafvec ev evv meth t a fr m v) (basic_vec_val evm evvm meth t (m a) v).
Proof.
move=> hm H HV ha; rewrite /basic_vec /basic_vec_val leqNgt hm [~~ true]/=.
have D : writesv fr m
   (let m0 := mset m fr (m a) in do m1 <- basic_mat leafmat ev meth t a fr fr.+1 m0; Ok (m1, col 0 (m1 fr)))
   (do F <- basic_val evm meth t (m a); Ok (col 0 F)).
  set m1 := mset m fr (m a).
  have W := @basic_writes ev evm meth t a fr fr.+1 m1 hm H ltac:(lia) ltac:(lia).
  have M1 : m1 a = m a by rewrite /m1 mset_other //; lia. rewrite M1 in W.
  apply: (writesv_bind W) => m2 F _ EF F2 /=. exists m2; rewrite EF; split=> //.
  move=> l Hl; rewrite F2; [|lia|lia]. rewrite /m1 mset_other //; lia.
case: t H HV D => [ps qs|l|c f1 f2] H HV D.
- case: ifP => _ //. exact: rational_vec_writes.
- case: (leafvec l meth) => [g|] //. case: (g (m a)) => [u| | |] //=. by exists m.
- case: ifP => _ //. apply: combine_vec_writes => //.
  + move=> f a' b' fr' m' Hf. exact: (H c f1 f2).
  + move=> f a' fr' m' v' Hf. exact: (HV c f1 f2).
Qed.

Lemma vec_priv_writes fuel h size rank herm : forall f a fr (m : mem) v,
  tree_all (fun ob => active size rank (f_pmode K ob)) fuel h f ->
  (a < fr)%N ->
  writesv fr m (vpriv fuel h size rank herm f a fr m v) (vec_val fuel h herm f (m a) v).
Proof.
elim: fuel => [|fuel IH] f a fr m v //= T ha.
case: f T => [i|] //. case: (h_obj K h i) => [ob|] // [-> T] /=.
case: ifP => // hm. case E: (f_type K ob) T => [t|] T //.
case: ifP => _.
  case: (symv _ _ _ _) => [F| | |] //=. by exists m.
have hm' : (f_meth K ob < FN_MAX_SOLVE)%N by rewrite ltnNge hm.
have HC : forall c f1 f2 f a b fr (m : mem), t = TCombine c f1 f2 -> f = f1 \/ f = f2 -> (a < fr)%N -> (b < fr)%N ->
      writes b fr m (mpriv fuel h size rank herm f a b fr m) (mat_val fuel h herm f (m a)).
  move=> c f1 f2 f a' b' fr' m' Et Hf; apply: mat_priv_writes. move: T; rewrite Et => -[T1 T2].
  by case: Hf => ->.
have HV : forall c f1 f2 f a fr (m : mem) v, t = TCombine c f1 f2 -> f = f1 \/ f = f2 -> (a < fr)%N ->
      writesv fr m (vpriv fuel h size rank herm f a fr m v) (vec_val fuel h herm f (m a) v).
  move=> c f1 f2 f a' fr' m' v' Et Hf; apply: IH. move: T; rewrite Et => -[T1 T2].
  by case: Hf => ->.
have fin : forall m1 : mem, (forall l, (l < fr)%N -> m1 l = m l) ->
   forall a1 fr1, (a1 < fr1)%N -> (fr <= fr1)%N -> m1 a1 = f_alpha K ob *: m a ->
   writesv fr m (do ' (m2, v2) <- basic_vec leafmat leafvec (mpriv fuel h size rank herm) (vpriv fuel h size rank herm) (f_meth K ob) t a1 fr1 m1 v;
                  Ok (m2, f_beta K ob *: v2))
     (do w <- basic_vec_val (mat_val fuel h herm) (vec_val fuel h herm) (f_meth K ob) t (f_alpha K ob *: m a) v; Ok (f_beta K ob *: w)).
  move=> m1 F1 a1 fr1 h1 h2 E1.
  have W := @basic_vec_writes _ _ _ _ (f_meth K ob) t a1 fr1 m1 v hm' HC HV h1.
  rewrite E1 in W. apply: (writesv_bindv W) => m2 w _ F2 /=.
  exists m2; split=> // l Hl; rewrite F2 ?F1 //; lia.
case: ifP => [_|/negbFE/eqP Ea].
- apply: fin => //; [move=> l Hl; rewrite mset_other //; lia|by rewrite mset_same].
- apply: fin => //; by rewrite Ea scale1r.
Qed.

(** Contract: a leaf method for the first column computes the first column of the leaf
    method for the whole matrix, when both exist. *)
Hypothesis leafvecP : forall l meth g gv A F w, leafmat l meth = Some g -> leafvec l meth = Some gv ->
  g A = Ok F -> gv A = Ok w -> w = col 0 F.

Lemma col_mul (X Y : mat) : col 0 (X *m Y) = X *m col 0 Y.
Proof. by rewrite !colE mulmxA. Qed.

Lemma vec_val_col fuel h herm : forall f A F v w,
  mat_val fuel h herm f A = Ok F -> vec_val fuel h herm f A v = Ok w -> w = col 0 F.
Proof.
elim: fuel => [|fuel IH] f A F v w //=.
case: f => [i|] //. case E: (h_obj K h i) => [ob|] //. case: ifP => // hm.
case Et: (f_type K ob) => [t|] //.
case: ifP => Hs.
  rewrite /sym_mat /sym_vec; case: (syev (tril A)) => [[Q e]| | |] //=.
  case: (sym_w _ _ _ _ _) => [W| | |] //= [<-] [<-]. by rewrite col_mul.
move=> E1 E2; have [G [EG [<-]]] := bind_inv E1; have [u [Eu [<-]]] := bind_inv E2 => {E1 E2}.
suff -> : u = col 0 G by rewrite !colE scalemxAl.
move: (f_alpha K ob *: A) EG Eu => B.
have D : forall t, basic_val (mat_val fuel h herm) (f_meth K ob) t B = Ok G ->
   (do F <- basic_val (mat_val fuel h herm) (f_meth K ob) t B; Ok (col 0 F)) = Ok u -> u = col 0 G.
  by move=> t' -> /= [<-].
case: t {Et} (D t) => [ps qs|l|c f1 f2] {}D.
- rewrite /basic_vec_val; case: ifP => [m0|]; last by move=> _; exact: D.
  rewrite /= m0 /= /rational_val /rational_vec_val. case: qs {D} => [|q0 qs]; first by move=> [<-] [<-].
  by rewrite /solve_val /check; case: ifP => // _ [<-] [<-]; rewrite col_mul.
- rewrite /basic_vec_val; case Ev: (leafvec l _) => [gv|]; last exact: D.
  rewrite /=; case El: (leafmat l _) => [g|] // Eg Egv. exact: (leafvecP El Ev Eg Egv).
- rewrite /basic_vec_val; case: ifP => [m0|]; last by move=> _; exact: D.
  rewrite /= m0 /=. case: c {D} => /= EG EZ.
  + have [X [EX EG2]] := bind_inv EG; have [Y [EY [<-]]] := bind_inv EG2.
    have [a [Ea EZ2]] := bind_inv EZ; have [b [Eb [<-]]] := bind_inv EZ2.
    by rewrite (IH _ _ _ _ _ EX Ea) (IH _ _ _ _ _ EY Eb) !colE mulmxDl.
  + have [X [EX EG2]] := bind_inv EG; have [Y [EY [<-]]] := bind_inv EG2.
    have [a [Ea EZ2]] := bind_inv EZ; have [b [Eb [<-]]] := bind_inv EZ2.
    move: Ea; rewrite EX => -[<-]. by rewrite (IH _ _ _ _ _ EY Eb) col_mul.
  + have [X [EX EG2]] := bind_inv EG; have [Y [EY EF]] := bind_inv EG2.
    have [a [Ea EZ2]] := bind_inv EZ; have [b [Eb EZ3]] := bind_inv EZ2.
    move: Ea EF EZ3; rewrite EX => -[<-]. rewrite /solve_val /check; case: ifP => // _ [<-] [<-].
    by rewrite (IH _ _ _ _ _ EY Eb) col_mul.
  + have [X [EX EF]] := bind_inv EG; have [a [Ea Eb]] := bind_inv EZ.
    move: Ea; rewrite EX => -[Ea]; subst a. exact: (IH _ _ _ _ _ EF Eb).
Qed.
End P.
