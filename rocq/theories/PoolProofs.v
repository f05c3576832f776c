From Coq Require Import ZArith List Bool Lia Sorting.Permutation.
From Verif Require Import Prelude PoolModel.
Import ListNotations.
Open Scope Z_scope.

(** Client histories: get n vectors, or put back the most recent outstanding request. *)
Inductive op := Get (n : Z) | Put.

Definition step (c : state * list (list nat)) (o : op) : res (state * list (list nat)) :=
  let '(s, stk) := c in
  match o with
  | Get n => do ' (s', out) <- pool_get s n; Ok (s', out :: stk)
  | Put => match stk with
           | [] => UB
           | top :: stk' => do s' <- pool_restore s (zlen top); Ok (s', stk')
           end
  end.

Fixpoint run (c : state * list (list nat)) (ops : list op) : res (state * list (list nat)) :=
  match ops with
  | [] => Ok c
  | o :: r => do c' <- step c o; run c' r
  end.

(** Stack discipline: request sizes non-negative, never more puts than gets; the result
    is the list of sizes of the outstanding requests. *)
Fixpoint sizes (stk : list Z) (ops : list op) : option (list Z) :=
  match ops with
  | [] => Some stk
  | Get n :: r => if n <? 0 then None else sizes (n :: stk) r
  | Put :: r => match stk with [] => None | _ :: stk' => sizes stk' r end
  end.

Definition ids (pl : pool) : list nat := match vecs pl with Some l => l | None => [] end.
Definition nonnil (l : list nat) : bool := match l with [] => false | _ => true end.

Definition pool_ok (pl : pool) : Prop :=
  exists l, vecs pl = Some l /\ zlen l = pn pl /\ 0 <= used pl <= pn pl.

Definition grp (pl : pool) (g : list (list nat)) : Prop :=
  concat (rev g) = firstn (Z.to_nat (used pl)) (ids pl).

Definition heap_ok (s : state) : Prop :=
  NoDup (flat_map ids (chain s)) /\ NoDup (live s) /\
  (forall x, In x (live s) <-> In x (flat_map ids (chain s))) /\
  (forall x, In x (live s) -> (x < next s)%nat).

Definition Inv (s : state) (stk : list (list nat)) : Prop :=
  heap_ok s /\
  ((exists g, 0 <= g /\ chain s = [Pool g 0 0 None] /\ filter nonnil stk = []) \/
   (exists groups, chain s <> [] /\ Forall pool_ok (chain s) /\
      Forall (fun pl => 0 < used pl) (tl (chain s)) /\
      Forall2 grp (chain s) groups /\
      filter nonnil stk = concat groups)).

Lemma destroy_vecs_ok : forall l lv, NoDup l -> NoDup lv -> incl l lv ->
  exists lv', destroy_vecs l lv = Ok lv' /\ NoDup lv' /\
    (forall x, In x lv' <-> In x lv /\ ~ In x l).
Proof.
  induction l as [|i l IH]; intros lv Nl Nlv Hi; simpl.
  - exists lv. repeat split; auto. now intros [].
  - inversion Nl; subst. destruct (in_dec Nat.eq_dec i lv) as [Hin|Hn].
    + destruct (IH (remove Nat.eq_dec i lv)) as (lv' & E & N' & H'); auto.
      * clear -Nlv. induction lv; simpl; [constructor|]. inversion Nlv; subst.
        destruct (Nat.eq_dec i a); auto. constructor; auto.
        intros H. apply in_remove in H. tauto.
      * intros x Hx. apply in_in_remove; [|apply Hi; now right]. intros ->; contradiction.
      * exists lv'. repeat split; auto.
        -- apply H' in H. destruct H as [H _]. apply in_remove in H. tauto.
        -- apply H' in H. destruct H as [Ha Hb]. apply in_remove in Ha. intros [->|?]; tauto.
        -- intros [Ha Hb]. apply H'. split; [|tauto]. apply in_in_remove; auto.
    + exfalso. apply Hn, Hi. now left.
Qed.

Lemma nodup_app {A} (l m : list A) : NoDup l -> NoDup m -> (forall x, In x l -> ~ In x m) -> NoDup (l ++ m).
Proof.
  induction l; simpl; intros Nl Nm H; auto. inversion Nl; subst.
  constructor; [|apply IHl; auto]. rewrite in_app_iff. intros [?|?]; [contradiction|].
  apply (H a); auto.
Qed.
Lemma nodup_app_r {A} (l m : list A) : NoDup (l ++ m) -> NoDup m.
Proof. induction l; simpl; auto. inversion 1; auto. Qed.
Lemma nodup_app_l {A} (l m : list A) : NoDup (l ++ m) -> NoDup l.
Proof. induction l; simpl; intros H; [constructor|]. inversion H; subst. constructor; auto. rewrite in_app_iff in *; tauto. Qed.
Lemma nodup_app_disj {A} (l m : list A) x : NoDup (l ++ m) -> In x l -> ~ In x m.
Proof.
  induction l; simpl; intros H []; inversion H; subst; auto.
  intros Hm; apply H3; rewrite in_app_iff; tauto.
Qed.

Lemma firstn_skipn_add {A} (a b : nat) (l : list A) :
  firstn (a + b) l = firstn a l ++ firstn b (skipn a l).
Proof. revert l; induction a; intros [|x l]; simpl; auto. - now rewrite firstn_nil. - now rewrite IHa. Qed.

Lemma filter_top out stk groups : filter nonnil stk = concat groups ->
  forall g0 gs, groups = g0 :: gs ->
  filter nonnil (out :: stk) = concat ((filter nonnil [out] ++ g0) :: gs).
Proof.
  intros H g0 gs ->. simpl. simpl in H. destruct (nonnil out); simpl; now rewrite H.
Qed.

Lemma grp_push pl g out off n gs' :
  grp pl g -> off = used pl -> 0 <= off -> 0 <= n ->
  out = firstn (Z.to_nat n) (skipn (Z.to_nat off) (ids pl)) ->
  forall pl', ids pl' = ids pl -> used pl' = used pl + n ->
  gs' = filter nonnil [out] ++ g -> grp pl' gs'.
Proof.
  intros G -> Ho Hn -> pl' Hi Hu ->. unfold grp in *. rewrite Hi, Hu.
  rewrite Z2Nat.inj_add by lia. rewrite firstn_skipn_add, <- G.
  simpl. set (o := firstn _ (skipn _ _)). destruct o eqn:E; simpl; [now rewrite app_nil_r|].
  rewrite concat_app. simpl. now rewrite app_nil_r.
Qed.

Lemma seq_heap nx m : NoDup (seq nx m) /\ forall x, In x (seq nx m) -> (nx <= x < nx + m)%nat.
Proof. split; [apply seq_NoDup|]. intros x. apply in_seq. Qed.

Lemma pool_get_ok s stk n : Inv s stk -> 0 <= n ->
  exists s' out, pool_get s n = Ok (s', out) /\ zlen out = n /\ Inv s' (out :: stk).
Proof.
  intros [(HN & HL & HE & HX) H] Hn.
  unfold pool_get. destruct (Z.leb_spec 0 n); [|lia]. cbn [check].
  destruct H as [(g & Hg & Hc & Hf)|(groups & Hc & Hok & Hu & HG & Hf)].
  - (* initial pool *)
    rewrite Hc in *. cbn [pn used vecs guess]. unfold first_guess. cbn [List.last guess].
    destruct (Z.ltb_spec (0 - 0) n).
    + unfold dup_vecs. destruct (Z.ltb_spec 0 (Z.max g (0 + n))); [|lia]. cbn [check bind].
      unfold slice. set (m := Z.max g (0 + n)) in *.
      assert (Hl : zlen (seq (next s) (Z.to_nat m)) = m) by (unfold zlen; rewrite seq_length; lia).
      rewrite Hl. destruct (Z.leb_spec (0 + n) m); [|lia]. cbn [andb Z.leb Z.compare bind].
      eexists _, _. split; [reflexivity|]. split.
      { unfold zlen. rewrite firstn_length. cbn [skipn Z.to_nat]. rewrite seq_length. lia. }
      simpl in HE. assert (Hlv : live s = []).
      { destruct (live s) as [|y l]; auto. exfalso. apply (HE y). now left. }
      destruct (seq_heap (next s) (Z.to_nat m)) as [S1 S2].
      split.
      * repeat split; cbn [chain live next flat_map ids vecs]; rewrite ?app_nil_r, ?Hlv; simpl; auto.
        intros x Hx. apply S2 in Hx. lia.
      * right. exists [filter nonnil [firstn (Z.to_nat n) (skipn (Z.to_nat 0) (seq (next s) (Z.to_nat m)))] ++ []].
        cbn [chain tl]. repeat split; auto; try discriminate.
        -- constructor; auto. eexists. repeat split; cbn; eauto; lia.
        -- constructor; auto.
           eapply grp_push with (pl := Pool g 0 g (Some (seq (next s) (Z.to_nat m)))) (off := 0) (g := []); cbn; auto; try lia; reflexivity.
        -- cbn [concat]. rewrite !app_nil_r. cbn [filter]. rewrite Hf.
           destruct (nonnil _); reflexivity.
    + assert (n = 0) by lia. subst n. unfold slice. cbn [Z.eqb bind].
      eexists _, _. split; [reflexivity|]. split; [reflexivity|]. split.
      * repeat split; auto; apply HE.
      * left. exists g. repeat split; auto.
  - destruct (chain s) as [|pl front] eqn:Ech; [congruence|]. clear Hc.
    inversion Hok as [|? ? Hpl Hfr]; subst. destruct Hpl as (l & Hv & Hl & Hub).
    simpl tl in Hu. inversion HG as [|? g0 ? gs G0 GS]; subst.
    assert (Hids : ids pl = l) by (unfold ids; now rewrite Hv).
    simpl flat_map in *. rewrite Hids in *.
    destruct (Z.ltb_spec (pn pl - used pl) n).
    + set (fg := first_guess _). rewrite Hv.
      set (m := Z.max fg (used pl + n)).
      destruct (Z.eqb_spec (used pl) 0) as [Hz|Hz].
      * (* destroy and reallocate *)
        destruct (destroy_vecs_ok l (live s)) as (lv & -> & Nlv & Hlv); auto.
        { now apply nodup_app_l in HN. }
        { intros x Hx. apply HE. rewrite in_app_iff. now left. }
        cbn [bind]. unfold dup_vecs. destruct (Z.ltb_spec 0 m); [|lia]. cbn [check bind].
        unfold slice.
        assert (Hl' : zlen (seq (next s) (Z.to_nat m)) = m) by (unfold zlen; rewrite seq_length; lia).
        rewrite Hl'. destruct (Z.leb_spec (0 + n) m); [|lia]. cbn [andb Z.leb Z.compare bind].
        eexists _, _. split; [reflexivity|]. split.
        { unfold zlen. rewrite firstn_length. cbn [skipn Z.to_nat]. rewrite seq_length. lia. }
        destruct (seq_heap (next s) (Z.to_nat m)) as [S1 S2].
        assert (Hfresh : forall x, In x (seq (next s) (Z.to_nat m)) -> ~ In x (live s)).
        { intros x Hx Hx'. apply S2 in Hx. apply HX in Hx'. lia. }
        split.
        -- repeat split; cbn [chain live next flat_map ids vecs].
           ++ apply nodup_app; auto; [now apply nodup_app_r in HN|].
              intros x Hx Hx'. apply (Hfresh x Hx). apply HE. rewrite in_app_iff. now right.
           ++ apply nodup_app; auto. intros x Hx Hx'. apply (Hfresh x Hx'). now apply Hlv.
           ++ rewrite !in_app_iff. intros [Hx|Hx]; [right|now left].
              apply Hlv in Hx. destruct Hx as [Hx Hx']. apply HE in Hx. rewrite in_app_iff in Hx. tauto.
           ++ rewrite !in_app_iff. intros [Hx|Hx]; [now right|left]. apply Hlv. split.
              ** apply HE. rewrite in_app_iff. now right.
              ** intros Hx'. revert Hx. eapply nodup_app_disj; eauto.
           ++ intros x. rewrite in_app_iff. intros [Hx|Hx].
              ** apply Hlv in Hx. destruct Hx as [Hx _]. apply HX in Hx. lia.
              ** apply S2 in Hx. lia.
        -- right. assert (g0 = [] \/ concat (rev g0) = []) as Hg0.
           { right. unfold grp in G0. rewrite G0, Hz. reflexivity. }
           eexists ((filter nonnil [firstn (Z.to_nat n) (skipn (Z.to_nat 0) (seq (next s) (Z.to_nat m)))] ++ g0) :: gs).
           cbn [chain tl]. repeat split; auto; try discriminate.
           ++ constructor; auto. eexists. repeat split; cbn; eauto; lia.
           ++ constructor; auto.
              eapply grp_push with (pl := Pool m 0 m (Some (seq (next s) (Z.to_nat m)))) (off := 0) (g := g0); cbn; auto; try lia.
              unfold grp. cbn. destruct Hg0 as [-> | ->]; reflexivity.
           ++ eapply filter_top; eauto.
      * (* new link *)
        destruct (Z.leb_spec 0 (m - used pl)); [|lia]. cbn [check].
        unfold dup_vecs. destruct (Z.ltb_spec 0 (m - used pl)); [|lia]. cbn [check bind].
        unfold slice. set (k := m - used pl) in *.
        assert (Hl' : zlen (seq (next s) (Z.to_nat k)) = k) by (unfold zlen; rewrite seq_length; lia).
        rewrite Hl'. destruct (Z.leb_spec (0 + n) k); [|lia]. cbn [andb Z.leb Z.compare bind].
        eexists _, _. split; [reflexivity|]. split.
        { unfold zlen. rewrite firstn_length. cbn [skipn Z.to_nat]. rewrite seq_length. lia. }
        destruct (seq_heap (next s) (Z.to_nat k)) as [S1 S2].
        assert (Hfresh : forall x, In x (seq (next s) (Z.to_nat k)) -> ~ In x (live s)).
        { intros x Hx Hx'. apply S2 in Hx. apply HX in Hx'. lia. }
        split.
        -- repeat split; cbn [chain live next flat_map ids vecs].
           ++ apply nodup_app; auto. intros x Hx Hx'. apply (Hfresh x Hx). now apply HE.
           ++ apply nodup_app; auto. intros x Hx Hx'. apply (Hfresh x Hx'). assumption.
           ++ rewrite !in_app_iff. intros [Hx|Hx]; [right|now left].
              apply HE in Hx. rewrite in_app_iff in Hx. tauto.
           ++ rewrite !in_app_iff. intros [Hx|Hx]; [now right|left]. apply HE. rewrite in_app_iff. tauto.
           ++ intros x. rewrite in_app_iff. intros [Hx|Hx].
              ** apply HX in Hx. lia.
              ** apply S2 in Hx. lia.
        -- right.
           eexists ((filter nonnil [firstn (Z.to_nat n) (skipn (Z.to_nat 0) (seq (next s) (Z.to_nat k)))] ++ []) :: g0 :: gs).
           cbn [chain tl]. repeat split; auto; try discriminate.
           ++ constructor; [|constructor; auto].
              ** eexists. repeat split; cbn; eauto; lia.
              ** exists l. repeat split; cbn; auto; lia.
           ++ constructor; auto. cbn. lia.
           ++ constructor; [|constructor; auto].
              ** eapply grp_push with (pl := Pool k 0 k (Some (seq (next s) (Z.to_nat k)))) (off := 0) (g := []); cbn; auto; try lia; reflexivity.
              ** unfold grp in *. rewrite G0. unfold ids. now rewrite Hv.
           ++ cbn [concat filter app] in *. rewrite Hf. destruct (nonnil _); cbn; now rewrite ?app_nil_r.
    + (* enough room *)
      rewrite Hv. unfold slice. rewrite Hl. destruct (Z.leb_spec 0 (used pl)); [|lia].
      destruct (Z.leb_spec (used pl + n) (pn pl)); [|lia]. cbn [andb bind].
      eexists _, _. split; [reflexivity|]. split.
      { unfold zlen in *. rewrite firstn_length, skipn_length. lia. }
      split.
      * exact (conj HN (conj HL (conj HE HX))).
      * right.
        eexists ((filter nonnil [firstn (Z.to_nat n) (skipn (Z.to_nat (used pl)) l)] ++ g0) :: gs).
        cbn [chain tl]. repeat split; auto; try discriminate.
        -- constructor; auto. eexists. repeat split; cbn; eauto; lia.
        -- constructor; auto. eapply grp_push with (pl := pl) (off := used pl) (n := n); rewrite ?Hids; eauto; try lia; try (now rewrite Hids); try reflexivity.
        -- eapply filter_top; eauto.
Qed.

Lemma rev_cons_concat (a : list nat) g : concat (rev (a :: g)) = concat (rev g) ++ a.
Proof. simpl. rewrite concat_app. simpl. now rewrite app_nil_r. Qed.

Lemma firstn_prefix {A} (p a l : list A) (u : Z) :
  p ++ a = firstn (Z.to_nat u) l -> 0 <= u <= zlen l ->
  p = firstn (Z.to_nat (u - zlen a)) l /\ zlen a <= u.
Proof.
  intros H Hu. assert (L : length (p ++ a) = Z.to_nat u).
  { rewrite H. rewrite firstn_length. unfold zlen in Hu. lia. }
  rewrite app_length in L. unfold zlen in *. split; [|lia].
  replace (Z.to_nat (u - Z.of_nat (length a))) with (length p) by lia.
  assert (E : firstn (length p) (firstn (Z.to_nat u) l) = p).
  { rewrite <- H. rewrite firstn_app, Nat.sub_diag, firstn_all. simpl. apply app_nil_r. }
  rewrite firstn_firstn in E. rewrite <- E at 1. f_equal. lia.
Qed.

Lemma nonnil_all stk groups : filter nonnil stk = concat groups ->
  forall g x, In g groups -> In x g -> x <> [].
Proof.
  intros H g x Hg Hx ->. assert (In [] (filter nonnil stk)).
  { rewrite H. apply in_concat. eauto. }
  apply filter_In in H0. destruct H0. discriminate.
Qed.

Lemma empty_group g : concat (rev g) = [] -> (forall x, In x g -> x <> []) -> g = @nil (list nat).
Proof.
  destruct g as [|a g]; auto. rewrite rev_cons_concat. intros H Hn.
  apply app_eq_nil in H. destruct H. exfalso. apply (Hn a); [now left|assumption].
Qed.

(** Restoring the top request from a last link with a group that holds it (or an empty request). *)
Lemma sub_ok pl g top gs stk : pool_ok pl -> grp pl g ->
  filter nonnil (top :: stk) = concat (g :: gs) -> (top = [] \/ g <> []) ->
  exists pl' g', pool_sub pl (zlen top) = Ok pl' /\ pool_ok pl' /\ grp pl' g' /\
    ids pl' = ids pl /\ filter nonnil stk = concat (g' :: gs).
Proof.
  intros (l & Hv & Hl & Hu) G Hf Ht. unfold pool_sub.
  destruct top as [|t top].
  - rewrite zlen_nil. destruct (Z.leb_spec 0 (used pl - 0)); [|lia]. cbn [check].
    eexists _, g. repeat split; eauto.
    + exists l. cbn. repeat split; auto; lia.
    + unfold grp in *. cbn [used]. rewrite Z.sub_0_r. unfold ids in *. cbn [vecs]. assumption.
  - destruct Ht as [?|Hg]; [discriminate|]. destruct g as [|a g]; [congruence|].
    cbn [filter nonnil] in Hf. simpl concat in Hf. injection Hf as <- Hf.
    unfold grp in G. rewrite rev_cons_concat in G. unfold ids in G. rewrite Hv in G.
    rewrite <- Hl in Hu. destruct (firstn_prefix _ _ _ _ G Hu) as [G1 G2].
    destruct (Z.leb_spec 0 (used pl - zlen (t :: top))); [|lia]. cbn [check].
    eexists _, g. repeat split; eauto.
    + exists l. cbn [used pn vecs]. pose proof (zlen_nonneg (t :: top)). repeat split; auto; lia.
    + unfold grp, ids. cbn [used vecs]. now rewrite Hv.
Qed.

Lemma pool_restore_ok s top stk : Inv s (top :: stk) ->
  exists s', pool_restore s (zlen top) = Ok s' /\ Inv s' stk.
Proof.
  intros [(HN & HL & HE & HX) H]. unfold pool_restore.
  destruct H as [(g & Hg & Hc & Hf)|(groups & Hc & Hok & Hu & HG & Hf)].
  - rewrite Hc in *. destruct top as [|t top]; [|discriminate].
    unfold pool_sub. cbn. eexists. split; [reflexivity|]. split.
    + repeat split; auto; apply HE.
    + left. exists g. repeat split; auto.
  - destruct (chain s) as [|pl front] eqn:Ech; [congruence|]. clear Hc.
    inversion HG as [|? g0 ? gs G0 GS]; subst.
    inversion Hok as [|? ? Hpl Hfr]; subst.
    pose proof (nonnil_all _ _ Hf) as Hnn.
    destruct front as [|pl0 front].
    + inversion GS; subst.
      destruct (sub_ok pl g0 top [] stk) as (pl' & g' & -> & Ok' & G' & I' & F'); auto.
      { destruct top; [now left|right]. destruct g0; [discriminate Hf|discriminate]. }
      cbn [bind]. eexists. split; [reflexivity|]. split.
      * unfold heap_ok in *; cbn [chain live next flat_map] in *. rewrite I'. repeat split; auto; apply HE.
      * right. exists [g']. cbn [chain tl]. repeat split; auto. discriminate.
    + inversion GS as [|? g1 ? gs' G1 GS']; subst.
      inversion Hfr as [|? ? Hpl0 Hfr']; subst. inversion Hu as [|? ? Hu0 Hu']; subst.
      destruct (Z.eqb_spec (used pl) 0) as [Hz|Hz].
      * (* last link empty: drop it *)
        assert (g0 = []) as ->.
        { apply empty_group; [|intros x; apply Hnn; now left].
          unfold grp in G0. now rewrite G0, Hz. }
        destruct Hpl as (l & Hv & Hl & Hub). rewrite Hv. cbn [destroy_opt].
        simpl flat_map in *. assert (Hids : ids pl = l) by (unfold ids; now rewrite Hv).
        rewrite Hids in *.
        destruct (destroy_vecs_ok l (live s)) as (lv & -> & Nlv & Hlv); auto.
        { now apply nodup_app_l in HN. }
        { intros x Hx. apply HE. rewrite in_app_iff. now left. }
        cbn [bind].
        set (pl0' := Pool (used pl0 + guess pl) (used pl0) (pn pl0) (vecs pl0)).
        destruct (sub_ok pl0' g1 top gs' stk) as (pl' & g' & -> & Ok' & G' & I' & F'); auto.
        { destruct top; [now left|right]. intros ->. unfold grp in G1. simpl in G1.
          destruct Hpl0 as (l0 & Hv0 & Hl0 & Hub0). unfold ids in G1. rewrite Hv0 in G1.
          assert (length (firstn (Z.to_nat (used pl0)) l0) = O) by now rewrite <- G1.
          rewrite firstn_length in H. unfold zlen in Hl0. lia. }
        cbn [bind]. eexists. split; [reflexivity|].
        assert (I0 : ids pl0' = ids pl0) by reflexivity.
        split.
        -- unfold heap_ok; cbn [chain live next flat_map]. rewrite I', I0. repeat split; auto.
           ++ now apply nodup_app_r in HN.
           ++ intros Hx. apply Hlv in Hx. destruct Hx as [Hx Hx']. apply HE in Hx.
              rewrite in_app_iff in Hx. tauto.
           ++ intros Hx. apply Hlv. split.
              ** apply HE. rewrite in_app_iff. now right.
              ** intros Hx'. revert Hx. eapply nodup_app_disj; eauto.
           ++ intros x Hx. apply Hlv in Hx. destruct Hx as [Hx _]. now apply HX.
        -- right. exists (g' :: gs'). cbn [chain tl]. repeat split; auto. discriminate.
      * destruct (sub_ok pl g0 top (g1 :: gs') stk) as (pl' & g' & -> & Ok' & G' & I' & F'); auto.
        { destruct top; [now left|right]. intros ->. unfold grp in G0. simpl in G0.
          destruct Hpl as (l0 & Hv0 & Hl0 & Hub0). unfold ids in G0. rewrite Hv0 in G0.
          assert (length (firstn (Z.to_nat (used pl)) l0) = O) by now rewrite <- G0.
          rewrite firstn_length in H. unfold zlen in Hl0. lia. }
        cbn [bind]. eexists. split; [reflexivity|]. split.
        -- unfold heap_ok in *; cbn [chain live next flat_map] in *. rewrite I'. repeat split; auto; apply HE.
        -- right. exists (g' :: g1 :: gs'). cbn [chain tl]. repeat split; auto. discriminate.
Qed.

Lemma run_ok : forall ops s stk szs, Inv s stk -> sizes (map zlen stk) ops = Some szs ->
  exists s' stk', run (s, stk) ops = Ok (s', stk') /\ Inv s' stk' /\ map zlen stk' = szs.
Proof.
  induction ops as [|o ops IH]; intros s stk szs I H; simpl in *.
  - exists s, stk. injection H as <-. auto.
  - destruct o as [n|].
    + destruct (Z.ltb_spec n 0); [discriminate|].
      destruct (pool_get_ok s stk n I) as (s' & out & -> & Hl & I'); auto. cbn [bind].
      apply IH; auto. simpl. now rewrite Hl.
    + destruct stk as [|top stk]; [discriminate|]. simpl in H.
      destruct (pool_restore_ok s top stk I) as (s' & -> & I'). cbn [bind]. auto.
Qed.

Lemma create_inv init : 0 <= init -> exists s, pool_create init = Ok s /\ Inv s [].
Proof.
  intros H. unfold pool_create. destruct (Z.leb_spec 0 init); [|lia]. cbn [check].
  eexists. split; [reflexivity|]. split.
  - repeat split; cbn; try constructor; auto; intros ? [].
  - left. exists init. auto.
Qed.

Lemma concat_filter_nonnil stk : concat (filter nonnil stk) = concat stk.
Proof. induction stk as [|[|a l] stk IH]; simpl; auto. now rewrite IH. Qed.

Lemma perm_concat (a b : list (list nat)) : Permutation a b -> Permutation (concat a) (concat b).
Proof.
  induction 1; simpl; auto.
  - now apply Permutation_app_head.
  - rewrite !app_assoc. apply Permutation_app_tail, Permutation_app_comm.
  - etransitivity; eauto.
Qed.

Lemma outstanding_sub s stk : Inv s stk ->
  NoDup (concat stk) /\ forall x, In x (concat stk) -> In x (live s).
Proof.
  intros [(HN & HL & HE & HX) H]. rewrite <- (concat_filter_nonnil stk).
  destruct H as [(g & Hg & Hc & Hf)|(groups & Hc & Hok & Hu & HG & Hf)].
  - rewrite Hf. split; [constructor|intros ? []].
  - rewrite Hf.
    assert (K : forall ch gs, Forall2 grp ch gs -> NoDup (flat_map ids ch) ->
       NoDup (concat (concat gs)) /\ forall x, In x (concat (concat gs)) -> In x (flat_map ids ch)).
    { clear. intros ch gs HG. induction HG as [|pl g ch gs G HG IH]; simpl; intros HN.
      - split; [constructor|auto].
      - destruct IH as [I1 I2]; [now apply nodup_app_r in HN|].
        assert (Hsub : forall x, In x (concat g) -> In x (ids pl)).
        { intros x Hx. unfold grp in G.
          assert (In x (concat (rev g))).
          { apply in_concat in Hx. destruct Hx as (y & ? & ?). apply in_concat. exists y. split; auto. now apply in_rev in H. }
          rewrite G in H. rewrite <- (firstn_skipn (Z.to_nat (used pl)) (ids pl)). apply in_or_app. now left. }
        assert (Hg : NoDup (concat g)).
        { unfold grp in G.
          assert (NoDup (concat (rev g))).
          { rewrite G. apply nodup_app_l in HN. rewrite <- (firstn_skipn (Z.to_nat (used pl)) (ids pl)) in HN.
            now apply nodup_app_l in HN. }
          eapply Permutation_NoDup; [|exact H]. apply perm_concat. symmetry; apply Permutation_rev. }
        rewrite concat_app. split.
        + apply nodup_app; auto. intros x Hx Hx'. apply Hsub in Hx. apply I2 in Hx'.
          revert Hx'. eapply nodup_app_disj; eauto.
        + intros x. rewrite !in_app_iff. intros [?|?]; auto. }
    destruct (K _ _ HG HN) as [K1 K2]. split; auto. intros x Hx. apply HE. auto.
Qed.

Lemma destroy_ok s stk : Inv s stk -> exists lv, pool_destroy s = Ok lv /\ lv = [].
Proof.
  intros [(HN & HL & HE & HX) _]. unfold pool_destroy.
  enough (K : forall ch lv, NoDup (flat_map ids ch) -> NoDup lv ->
    (forall x, In x lv <-> In x (flat_map ids ch)) -> pool_destroy_chain ch lv = Ok []).
  { eexists; split; [apply K; auto|reflexivity]. }
  clear. induction ch as [|pl ch IH]; intros lv HN HL HE; simpl in *.
  - destruct lv as [|y lv]; auto. exfalso. apply (HE y). now left.
  - unfold destroy_opt. unfold ids at 1 in HN. unfold ids at 1 in HE.
    destruct (vecs pl) as [l|] eqn:Hv.
    + destruct (destroy_vecs_ok l lv) as (lv' & -> & Nlv & Hlv); auto.
      { now apply nodup_app_l in HN. }
      { intros x Hx. apply HE. rewrite in_app_iff. now left. }
      cbn [bind]. apply IH; auto.
      * now apply nodup_app_r in HN.
      * intros x. rewrite Hlv, HE, in_app_iff. split; [tauto|]. intros Hx. split; auto.
        intros Hx'. revert Hx. eapply nodup_app_disj; eauto.
    + cbn [bind]. apply IH; auto.
Qed.
