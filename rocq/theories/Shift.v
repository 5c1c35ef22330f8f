(** * Moving the whole drawing: every function of the pipeline commutes with a translation. *)
From Verif Require Import Base Spec QLib ModelSegm SegmProofs MergeProofs PlanarGeo PlanarSum ModelFill ModelFilter FillProofs FillCorrect
  ModelCross CrossProofs CrossPoint MarksProofs CoreResults Properties01 ModelSplit SplitProofs SplitPlanar SplitPass BinsProofs SplitApply SplitLoop
  ModelFrag ModelOverlay OverlayProofs.
From Coq Require Import Permutation.
Open Scope Z_scope.

(** the point moved by [v] *)
Definition mv (v p : pt) : pt := Pt (px p + px v) (py p + py v).
Definition mvx (v : pt) (s : xseg) : xseg := XS (mv v (sa s)) (mv v (sb s)).
Definition mvs {C} (v : pt) (s : segment C) : segment C := Seg (mvx v (sx s)) (sc s).
Definition mvm (v : pt) (m : mark) : mark := (fst m, mv v (snd m)).
Definition mvl (v : pt) (l : link) : link := Lk (l_aid l) (mv v (l_a l)) (l_bid l) (mv v (l_b l)) (l_fill l).

Section Move.
  Variable v : pt.
  Notation m := (mv v).
  Notation mx := (mvx v).

  (** ** Points *)
  Lemma px_mv p : px (m p) = px p + px v. Proof. reflexivity. Qed.
  Lemma py_mv p : py (m p) = py p + py v. Proof. reflexivity. Qed.
  Lemma eqb_add a b c : (a + c =? b + c) = (a =? b). Proof. lia. Qed.
  Lemma ltb_add a b c : (a + c <? b + c) = (a <? b). Proof. lia. Qed.
  Lemma leb_add a b c : (a + c <=? b + c) = (a <=? b). Proof. lia. Qed.
  Lemma gtb_add a b c : (a + c >? b + c) = (a >? b). Proof. lia. Qed.
  Lemma sub_add a b c : a + c - (b + c) = a - b. Proof. lia. Qed.

  Lemma mv_eqb p q : pt_eqb (m p) (m q) = pt_eqb p q.
  Proof. unfold pt_eqb. cbn [mv px py]. rewrite !eqb_add. reflexivity. Qed.
  Lemma mv_ltb p q : pt_ltb (m p) (m q) = pt_ltb p q.
  Proof. unfold pt_ltb. cbn [mv px py]. rewrite !ltb_add, !eqb_add. reflexivity. Qed.
  Lemma mv_leb p q : pt_leb (m p) (m q) = pt_leb p q.
  Proof. unfold pt_leb. rewrite mv_ltb, mv_eqb. reflexivity. Qed.
  Lemma mv_cmp p q : pt_cmp (m p) (m q) = pt_cmp p q.
  Proof. unfold pt_cmp. rewrite mv_ltb, mv_eqb. reflexivity. Qed.
  Lemma mv_cross3 p q r : cross3 (m p) (m q) (m r) = cross3 p q r.
  Proof. unfold cross3. cbn [mv px py]. rewrite !sub_add. reflexivity. Qed.
  Lemma mv_clock p q r : is_clockwise (m p) (m q) (m r) = is_clockwise p q r.
  Proof. unfold is_clockwise. rewrite mv_cross3. reflexivity. Qed.
  Lemma mv_line p q r : is_line_point (m p) (m q) (m r) = is_line_point p q r.
  Proof. unfold is_line_point. rewrite mv_cross3. reflexivity. Qed.
  Lemma mv_not_line p q r : is_not_line_point (m p) (m q) (m r) = is_not_line_point p q r.
  Proof. unfold is_not_line_point. rewrite mv_line. reflexivity. Qed.
  Lemma mv_dir p q r : clock_direction (m p) (m q) (m r) = clock_direction p q r.
  Proof. unfold clock_direction. rewrite mv_cross3. reflexivity. Qed.
  Lemma mv_order p q r : clock_order (m p) (m q) (m r) = clock_order p q r.
  Proof. unfold clock_order. rewrite mv_cross3. reflexivity. Qed.
  Lemma mv_dist p q : sqr_dist (m p) (m q) = sqr_dist p q.
  Proof. unfold sqr_dist. cbn [mv px py]. rewrite !sub_add. reflexivity. Qed.
  Lemma mv_dot3 p o a b : dot3 (m p) (m o) (m a) (m b) = dot3 p o a b.
  Proof. unfold dot3. cbn [mv px py]. rewrite !sub_add. reflexivity. Qed.
  Lemma mvx_eqb s t : xseg_eqb (mx s) (mx t) = xseg_eqb s t.
  Proof. unfold xseg_eqb. cbn [mvx sa sb]. rewrite !mv_eqb. reflexivity. Qed.
  Lemma mvx_ltb s t : xseg_ltb (mx s) (mx t) = xseg_ltb s t.
  Proof. unfold xseg_ltb. cbn [mvx sa sb]. rewrite !mv_ltb, mv_eqb. reflexivity. Qed.
  Lemma mvx_leb s t : xseg_leb (mx s) (mx t) = xseg_leb s t.
  Proof. unfold xseg_leb. rewrite mvx_ltb. reflexivity. Qed.

  (** ** Lists *)
  Lemma insert_map {A B} (f : A -> B) (le : B -> B -> bool) (le' : A -> A -> bool) x l : (forall x y, le (f x) (f y) = le' x y) ->
    insert le (f x) (map f l) = map f (insert le' x l).
  Proof. intro H. induction l as [|y l IH]; auto. cbn [map insert]. rewrite H. destruct (le' x y); auto. cbn [map]. rewrite IH. reflexivity. Qed.
  Lemma isort_map {A B} (f : A -> B) (le : B -> B -> bool) (le' : A -> A -> bool) l : (forall x y, le (f x) (f y) = le' x y) ->
    isort le (map f l) = map f (isort le' l).
  Proof. intro H. induction l as [|y l IH]; auto. cbn [map isort]. rewrite IH. apply insert_map; auto. Qed.
  Lemma combine_map_r {A B D} (f : B -> D) : forall (k : list A) l, combine k (map f l) = map (fun x => (fst x, f (snd x))) (combine k l).
  Proof. induction k as [|a k IH]; intros [|b l]; auto. cbn [map combine]. rewrite IH. reflexivity. Qed.
  Lemma combine_map_l {A B D} (f : A -> D) : forall (k : list A) (l : list B), combine (map f k) l = map (fun x => (f (fst x), snd x)) (combine k l).
  Proof. induction k as [|a k IH]; intros [|b l]; auto. cbn [map combine]. rewrite IH. reflexivity. Qed.
  Lemma enum_map {A B} (f : A -> B) l : enum (map f l) = map (fun x => (fst x, f (snd x))) (enum l).
  Proof. unfold enum. rewrite map_length. apply combine_map_r. Qed.
  Lemma runs_map {A B} (f : A -> B) (same : B -> B -> bool) (same' : A -> A -> bool) l : (forall x y, same (f x) (f y) = same' x y) ->
    runs same (map f l) = map (map f) (runs same' l).
  Proof.
    intro H. induction l as [|x l IH]; auto. cbn [map runs]. rewrite IH.
    destruct (runs same' l) as [|[|y g] gs]; auto. cbn [map]. rewrite H. destruct (same' x y); auto.
  Qed.
  Lemma filter_map {A B} (f : A -> B) (p : B -> bool) (p' : A -> bool) l : (forall x, p (f x) = p' x) -> filter p (map f l) = map f (filter p' l).
  Proof. intro H. induction l as [|x l IH]; auto. cbn [map filter]. rewrite H, IH. destruct (p' x); auto. Qed.
  Lemma last_map {A B} (f : A -> B) l d : last (map f l) (f d) = f (last l d).
  Proof. induction l as [|x [|y l] IH]; auto. Qed.

  (** ** Segments *)
  Section Segs.
    Context {C : Type} {WC : WindingCount C}.
    Notation ms := (mvs (C := C) v).
    Lemma mv_create a b (c : C) : create_and_validate (m a) (m b) c = ms (create_and_validate a b c).
    Proof. unfold create_and_validate. rewrite mv_ltb. destruct (pt_ltb a b); reflexivity. Qed.
    Lemma mv_with_ab a b (c d : C) : with_ab (m a) (m b) c d = ms (with_ab a b c d).
    Proof. unfold with_ab. rewrite mv_ltb. destruct (pt_ltb a b); reflexivity. Qed.
    Lemma mv_skip l : forall p0 p1, append_skip (m p0) (m p1) (map m l) =
      let '(a, b, r) := append_skip p0 p1 l in (m a, m b, map m r).
    Proof. induction l as [|p l IH]; intros p0 p1; auto. cbn [map append_skip]. rewrite mv_not_line. destruct (is_not_line_point p0 p1 p); auto. Qed.
    Lemma mv_loop (d i : C) l : forall p0 p1, append_loop (m p0) (m p1) (map m l) d i =
      let '(o, a, b) := append_loop p0 p1 l d i in (map ms o, m a, m b).
    Proof.
      induction l as [|p l IH]; intros p0 p1; auto. cbn [map append_loop]. rewrite mv_line. destruct (is_line_point p0 p1 p); auto.
      rewrite IH. destruct (append_loop p1 p l d i) as [[o a] b]. cbn [map]. rewrite mv_with_ab. reflexivity.
    Qed.
    Lemma mv_close p0 p1 q0 q1 (d i : C) : append_close (m p0) (m p1) (m q0) (m q1) d i = map ms (append_close p0 p1 q0 q1 d i).
    Proof.
      unfold append_close. rewrite !mv_line, !mv_with_ab, !mv_eqb.
      destruct (is_line_point p0 p1 q0), (is_line_point q0 q1 p1); auto;
        match goal with |- context [pt_eqb ?x ?y] => destruct (pt_eqb x y) end; reflexivity.
    Qed.
    Lemma mv_append path t : append_path (C := C) (map m path) t = map ms (append_path path t).
    Proof.
      destruct path as [|p0 [|p1 it]]; auto. cbn [map append_path]. rewrite mv_skip. destruct (append_skip p0 p1 it) as [[e0 e1] rest].
      destruct (wc_with_shape t) as [d i]. rewrite mv_loop. destruct (append_loop e0 e1 rest d i) as [[o f0] f1].
      rewrite mv_close, map_app. reflexivity.
    Qed.
    Lemma mv_merge_from l : forall p : segment C, merge_from (ms p) (map ms l) = map ms (merge_from p l).
    Proof.
      induction l as [|s l IH]; intro p; cbn [map merge_from]; cbn [mvs sx sc]; [destruct (wc_not_empty (sc p)); reflexivity|].
      rewrite mvx_eqb. destruct (xseg_eqb (sx p) (sx s)).
      - rewrite <- IH. reflexivity.
      - change (Seg (mx (sx p)) (sc p)) with (ms p). change (Seg (mx (sx s)) (sc s)) with (ms s).
        rewrite IH. destruct (wc_not_empty (sc p)); reflexivity.
    Qed.
    Lemma mv_merge_scan l : forall p : segment C, merge_scan (ms p) (map ms l) = map ms (merge_scan p l).
    Proof.
      induction l as [|s l IH]; intro p; auto. cbn [map merge_scan]. cbn [mvs sx]. rewrite mvx_eqb.
      change (Seg (mx (sx s)) (sc s)) with (ms s). change (ms s :: map ms l) with (map ms (s :: l)).
      destruct (xseg_eqb (sx p) (sx s)); [apply mv_merge_from|]. rewrite IH. reflexivity.
    Qed.
    Lemma mv_sort (l : list (segment C)) : sort_segments (map ms l) = map ms (sort_segments l).
    Proof. apply isort_map. intros x y. unfold seg_leb. cbn [mvs sx]. apply mvx_leb. Qed.
    Lemma mv_sort_merge (l : list (segment C)) : sort_merge (map ms l) = map ms (sort_merge l).
    Proof. unfold sort_merge. rewrite mv_sort. destruct (sort_segments l); auto. apply mv_merge_scan. Qed.
    Lemma mv_sx (l : list (segment C)) : map sx (map ms l) = map mx (map sx l).
    Proof. rewrite !map_map. reflexivity. Qed.
  End Segs.

  (** ** Crossings *)
  Lemma mv_cross_point s t : cross_point (mx s) (mx t) = m (cross_point s t).
  Proof.
    unfold cross_point. cbn [mvx sa sb mv px py]. rewrite !sub_add.
    match goal with |- context [let '(x0, y0) := ?e in _] => destruct e as [x0 y0] end.
    unfold mv. cbn [px py]. f_equal; lia.
  Qed.
  Lemma mv_middle s t r : middle_cross (mx s) (mx t) r = let c := middle_cross s t r in CRes (m (c_point c)) (c_type c) (c_round c).
  Proof.
    unfold middle_cross. rewrite mv_cross_point. cbn [mvx sa sb]. rewrite !mv_line, !mv_dist.
    destruct (_ && _); auto. destruct (_ || _); auto.
    destruct (Z.min _ _ <=? Z.min _ _).
    - destruct (sqr_dist (sa s) _ <? sqr_dist (sb s) _); rewrite mv_not_line; destruct (is_not_line_point _ _ _); reflexivity.
    - destruct (sqr_dist (sa t) _ <? sqr_dist (sb t) _); rewrite mv_not_line; destruct (is_not_line_point _ _ _); reflexivity.
  Qed.
  Lemma mv_collinear s t : collinear (mx s) (mx t) = collinear s t.
  Proof. unfold collinear. cbn [mvx sa sb]. rewrite !mv_dot3. reflexivity. Qed.
  Lemma mv_marks i j s t r : cross_marks i j (mx s) (mx t) r = (map (mvm v) (fst (cross_marks i j s t r)), snd (cross_marks i j s t r)).
  Proof.
    unfold cross_marks, cross. rewrite mv_collinear, mv_middle. cbn [mvx sa sb]. rewrite !mv_dir.
    destruct (_ =? 4).
    { cbn [c_type c_round]. destruct (collinear s t) as [[[a b] c] d]. destruct a, b, c, d; reflexivity. }
    destruct (_ || _); auto. destruct (negb _).
    - destruct (_ =? 0); auto. destruct (_ =? 0); auto. destruct (_ =? 0); auto.
    - cbv zeta. cbn [c_type c_point c_round]. destruct (middle_cross s t r) as [p [| | |] b]; cbn [c_type c_point c_round]; auto.
      destruct (collinear s t) as [[[a' b'] c] d]. destruct a', b', c, d; reflexivity.
  Qed.

  (** ** One pass *)
  Lemma mv_y_min s : y_min (mx s) = y_min s + py v.
  Proof. unfold y_min. cbn [mvx sa sb mv py]. rewrite ltb_add. destruct (_ <? _); reflexivity. Qed.
  Lemma mv_y_max s : y_max (mx s) = y_max s + py v.
  Proof. unfold y_max. cbn [mvx sa sb mv py]. rewrite ltb_add. destruct (_ <? _); reflexivity. Qed.
  Lemma mv_y_range s t : is_not_intersect_y_range (mx s) (mx t) = is_not_intersect_y_range s t.
  Proof. unfold is_not_intersect_y_range. rewrite mv_y_min, mv_y_max. cbn [mvx sa sb mv py]. rewrite !gtb_add, !ltb_add. reflexivity. Qed.
  Notation mi := (fun x : nat * xseg => (fst x, mx (snd x))).
  Lemma mv_list_row r i s l : list_row r i (mx s) (map mi l) = (map (mvm v) (fst (list_row r i s l)), snd (list_row r i s l)).
  Proof.
    induction l as [|[j t] l IH]; auto. cbn [map fst snd list_row]. cbn [mvx sa sb mv px]. rewrite ltb_add.
    destruct (_ <? _); auto. change (XS (m (sa s)) (m (sb s))) with (mx s). change (XS (m (sa t)) (m (sb t))) with (mx t).
    rewrite mv_y_range. destruct (is_not_intersect_y_range t s); auto.
    rewrite mv_marks, IH. destruct (cross_marks i j s t r), (list_row r i s l). cbn [fst snd]. rewrite map_app. reflexivity.
  Qed.
  Lemma mv_list_pass r l : list_pass r (map mx l) = (map (mvm v) (fst (list_pass r l)), snd (list_pass r l)).
  Proof.
    unfold list_pass. rewrite enum_map. generalize (enum l). clear l.
    induction l as [|[i s] l IH]; auto. cbn [map fst snd list_rows]. rewrite mv_list_row, IH.
    destruct (list_row r i s l), (list_rows r l). cbn [fst snd]. rewrite map_app. reflexivity.
  Qed.

  (** ** Marks *)
  Lemma mvm_eqb x y : mark_eqb (mvm v x) (mvm v y) = mark_eqb x y.
  Proof. unfold mark_eqb, mvm. cbn [fst snd]. rewrite mv_eqb. reflexivity. Qed.
  Lemma mvm_leb x y : mark_leb (mvm v x) (mvm v y) = mark_leb x y.
  Proof. unfold mark_leb, mvm. cbn [fst snd]. rewrite mv_leb. reflexivity. Qed.
  Lemma mv_dedup l : dedup (map (mvm v) l) = map (mvm v) (dedup l).
  Proof. induction l as [|x l IH]; auto. cbn [map dedup]. rewrite IH. destruct (dedup l) as [|y r]; auto. cbn [map]. rewrite mvm_eqb. destruct (mark_eqb x y); auto. Qed.
  Lemma mv_groups s gs : forall y0, order_groups (y0 + py v) (mx s) (map (map m) gs) = map m (order_groups y0 s gs).
  Proof.
    induction gs as [|g gs IH]; intro y0; auto. cbn [map order_groups].
    assert (E : match map (map m) gs with (m0 :: _) :: _ => py m0 | _ => py (sb (mx s)) end =
                match gs with (m0 :: _) :: _ => py m0 | _ => py (sb s) end + py v) by (destruct gs as [|[|? ?] ?]; reflexivity).
    rewrite E, gtb_add. set (b := y0 >? _). rewrite map_app.
    assert (G : (if b then rev (map m g) else map m g) = map m (if b then rev g else g)) by (destruct b; auto; rewrite map_rev; reflexivity).
    rewrite G. f_equal. rewrite <- IH. f_equal.
    change (py (last (map m (if b then rev g else g)) (Pt 0 (y0 + py v))) = py (m (last (if b then rev g else g) (Pt 0 y0)))).
    generalize (if b then rev g else g). intro l. clear. destruct l as [|p l]; auto. revert p. induction l as [|q l IL]; intro p; auto. apply (IL q).
  Qed.
  Lemma mv_sub_marks s ps : sort_sub_marks (mx s) (map m ps) = map m (sort_sub_marks s ps).
  Proof.
    unfold sort_sub_marks. rewrite (runs_map m _ (fun p q => px p =? px q)) by (intros; cbn [mv px]; apply eqb_add).
    apply mv_groups.
  Qed.
  Lemma runs_in {A} (same : A -> A -> bool) l g x : In g (runs same l) -> In x g -> In x l.
  Proof.
    revert g. induction l as [|y l IH]; intros g Hg Hx; [destruct Hg|]. cbn [runs] in Hg.
    destruct (runs same l) as [|[|z h] gs] eqn:E.
    - destruct Hg as [<-|[]]. destruct Hx as [->|[]]. left; auto.
    - destruct Hg as [<-|[]]. destruct Hx as [->|[]]. left; auto.
    - destruct (same y z).
      + destruct Hg as [<-|Hg].
        * destruct Hx as [->|Hx]; [left; auto|]. right. apply (IH (z :: h)); simpl; auto.
        * right. apply (IH g); simpl; auto.
      + destruct Hg as [<-|[<-|Hg]].
        * destruct Hx as [->|[]]. left; auto.
        * right. apply (IH (z :: h)); simpl; auto.
        * right. apply (IH g); simpl; auto.
  Qed.
  Notation mg := (fun g : nat * list pt => (fst g, map m (snd g))).
  Lemma mv_filter_marks segs l : Forall (fun x => (fst x < length segs)%nat) l ->
    sort_and_filter_marks (map mx segs) (map (mvm v) l) = map mg (sort_and_filter_marks segs l).
  Proof.
    intro F. unfold sort_and_filter_marks. rewrite (isort_map _ _ mark_leb) by apply mvm_leb. rewrite mv_dedup.
    rewrite (runs_map (mvm v) (fun x y : mark => fst x =? fst y)%nat (fun x y : mark => fst x =? fst y)%nat) by reflexivity. rewrite !map_map. apply map_ext_in.
    intros g Hg. destruct g as [|[i p] g]; auto. cbn [map]. unfold mvm at 1. cbn [fst snd].
    assert (L : (i < length segs)%nat).
    { apply (runs_in _ _ _ (i, p)) in Hg; [|left; auto]. rewrite dedup_in, isort_in in Hg. rewrite Forall_forall in F. apply (F _ Hg). }
    f_equal. rewrite (nth_indep _ (XS (Pt 0 0) (Pt 0 0)) (mx (XS (Pt 0 0) (Pt 0 0)))) by (rewrite map_length; auto).
    rewrite map_nth. rewrite <- mv_sub_marks. f_equal. cbn [map]. f_equal. rewrite !map_map. reflexivity.
  Qed.

  (** ** Applying the marks *)
  Section Apply.
    Context {C : Type} {WC : WindingCount C}.
    Notation ms := (mvs (C := C) v).
    Lemma mv_chop (c : C) l b : forall p, chop c (m p) (map m l) (m b) = map ms (chop c p l b).
    Proof. induction l as [|q l IH]; intro p; cbn [map chop]; rewrite mv_create; auto. rewrite IH. reflexivity. Qed.
    Lemma mv_lookup gs i : lookup (map mg gs) i = option_map (map m) (lookup gs i).
    Proof. induction gs as [|[k ps] gs IH]; auto. cbn [map fst snd]. rewrite !lookup_cons. destruct (k =? i)%nat; auto. Qed.
    Lemma mv_pieces (segs : list (segment C)) l : Forall (fun x => (fst x < length segs)%nat) l ->
      split_pieces (map ms segs) (map (mvm v) l) = map ms (split_pieces segs l).
    Proof.
      intro F. unfold split_pieces, all_pieces. rewrite mv_sx, mv_filter_marks by (rewrite map_length; auto). rewrite enum_map.
      set (gs := sort_and_filter_marks (map sx segs) l). generalize (enum segs). induction l0 as [|[i s] r IH]; auto.
      cbn [map flat_map fst snd]. rewrite IH, map_app. f_equal. rewrite mv_lookup. destruct (lookup gs i); auto.
      cbn [option_map pieces mvs sc sx mvx sa sb]. apply mv_chop.
    Qed.
  End Apply.

  (** ** The loop of the list solver *)
  Definition map_out {C D} (f : segment C -> segment D) (o : outcome (C := C)) : outcome (C := D) :=
    match o with Done l => Done (map f l) | Panic => Panic | Fuel => Fuel end.
  Section Loop.
    Context {C : Type} {WC : WindingCount C} {WL : WCLaws C}.
    Notation ms := (mvs (C := C) v).
    Variables (lay1 lay2 : Z -> Z -> nat -> option (Z -> nat)) (q1 q2 : list (nat * xseg) -> Z * Z -> Z -> list (nat * xseg)) (t1 t2 : Z * Z -> bool).
    Hypothesis Lay1 : layout_ok lay1.
    Hypothesis Lay2 : layout_ok lay2.
    Lemma mv_list_loop p : forall fuel r (segs : list (segment C)), inv segs -> inv (map ms segs) ->
      split_loop lay2 q2 t2 fuel (list_solver p) false r (map ms segs) = map_out ms (split_loop lay1 q1 t1 fuel (list_solver p) false r segs).
    Proof.
      induction fuel as [|fuel IH]; intros r segs I1 I2; auto. cbn [split_loop]. rewrite map_length.
      destruct (length segs <=? 1)%nat; auto. rewrite mv_sx.
      pose proof (list_pass_spec (sr_radius r) (sr_radius_pos r) (map sx segs) (inv_wf_sorted _ I1)) as [P1 _].
      pose proof (list_pass_spec (sr_radius r) (sr_radius_pos r) (map sx (map ms segs)) (inv_wf_sorted _ I2)) as [P2 _].
      rewrite mv_sx in P2. rewrite mv_list_pass in *.
      destruct (list_pass (sr_radius r) (map sx segs)) as [k rd] eqn:EP. cbn [fst snd] in *. rewrite <- mv_sx in P2.
      destruct k as [|k0 kr] eqn:EK; auto. rewrite <- EK in *.
      assert (NE : k <> []) by (rewrite EK; discriminate).
      assert (F : Forall (fun x => (fst x < length segs)%nat) k).
      { apply Forall_forall. intros [i q] H. apply P1 in H. apply pass_not_end in H as (s & H & _); auto using (inv_wf_sorted segs I1), (sr_radius_pos r).
        cbn [fst]. rewrite <- (map_length sx). apply nth_error_Some. congruence. }
      pose proof (step_inv segs I1 _ (sr_radius_pos r) k P1) as J1.
      pose proof (step_inv (map ms segs) I2 _ (sr_radius_pos r) _ P2) as J2.
      rewrite (step_apply lay1 Lay1 segs I1 _ (sr_radius_pos r) k P1 NE).
      replace (map (mvm v) (k0 :: kr)) with (map (mvm v) k) by (rewrite EK; auto).
      rewrite (step_apply lay2 Lay2 (map ms segs) I2 _ (sr_radius_pos r) _ P2) by (rewrite EK; discriminate).
      rewrite mv_pieces, mv_sort_merge in * by auto.
      destruct k as [|x y]; [contradiction|]. cbn [map]. destruct (negb rd); auto. cbn [is_list_split list_solver strategy]. apply IH; auto.
    Qed.
  End Loop.

  (** ** The fill sweep *)
  Lemma mv_vcmp s t : vseg_cmp (mx s) (mx t) = vseg_cmp s t.
  Proof. unfold vseg_cmp. cbn [mvx sa sb]. rewrite mv_cmp, !mv_order. reflexivity. Qed.
  Lemma mv_under s p : under_point_order (mx s) (m p) = under_point_order s p.
  Proof. unfold under_point_order. cbn [mvx sa sb]. apply mv_order. Qed.
  Section Fill.
    Context {C : Type} {WC : WindingCount C}.
    Variable aff : C -> C -> C * fill_t.
    Notation ms := (mvs (C := C) v).
    Notation msc := (map (fun e : xseg * C => (mx (fst e), snd e))).
    Notation mis := (fun x : nat * segment C => (fst x, ms (snd x))).
    Lemma mv_expire t (s : list (xseg * C)) : expire (t + px v) (msc s) = msc (expire t s).
    Proof. apply filter_map. intros [k c]. cbn [fst snd mvx sb mv px]. apply ltb_add. Qed.
    Lemma mv_insert k c (s : list (xseg * C)) : scan_insert (mx k) c (msc s) = msc (scan_insert k c s).
    Proof. induction s as [|[k' c'] s IH]; auto. cbn [map fst snd scan_insert]. rewrite mv_vcmp, IH. destruct (vseg_cmp k k'); reflexivity. Qed.
    Lemma mv_find (f g : xseg -> comparison) d (s : list (xseg * C)) : (forall x, g (mx x) = f x) -> find_le g d (msc s) = find_le f d s.
    Proof. intro H. revert d. induction s as [|[k c] s IH]; intro d; auto. cbn [map fst snd find_le]. rewrite H, IH. reflexivity. Qed.
    Lemma mv_starts (l : list (nat * segment C)) : group_starts (map mis l) = map (fun g => (m (fst g), map mis (snd g))) (group_starts l).
    Proof.
      induction l as [|s l IH]; auto. cbn [map group_starts]. rewrite IH. destruct (group_starts l) as [|[p g] gs]; auto.
      cbn [map fst snd mvs sx mvx sa]. rewrite mv_eqb. destruct (pt_eqb _ p); reflexivity.
    Qed.
    Lemma mv_vertical s : is_not_vertical (mx s) = is_not_vertical s.
    Proof. unfold is_not_vertical. cbn [mvx sa sb mv px]. rewrite ?eqb_add. reflexivity. Qed.
    Lemma mv_group p buf : forall sum scan, sweep_group aff (m p) (map mis buf) sum (msc scan) =
      let '(o, s) := sweep_group aff p buf sum scan in (o, msc s).
    Proof.
      induction buf as [|[i s] buf IH]; intros sum scan; auto. cbn [map fst snd sweep_group]. change (sc (ms s)) with (sc s). change (sx (ms s)) with (mx (sx s)).
      destruct (aff (sc s) sum) as [sum' fl]. rewrite mv_vertical, px_mv, mv_expire, mv_insert.
      destruct (is_not_vertical (sx s)); rewrite IH; destruct (sweep_group aff p buf sum' _); reflexivity.
    Qed.
    Lemma mv_sweep gs : forall scan, sweep aff (map (fun g => (m (fst g), map mis (snd g))) gs) (msc scan) = sweep aff gs scan.
    Proof.
      induction gs as [|[p g] gs IH]; intro scan; auto. cbn [map fst snd sweep].
      rewrite px_mv, mv_expire, (mv_find (fun s => under_point_order s p)) by (intros; apply mv_under).
      rewrite (isort_map mis _ (angle_leb p)) by (intros [i x] [j y]; unfold angle_leb; cbn [fst snd mvs sx mvx sb]; rewrite mv_order; reflexivity).
      rewrite mv_group. destruct (sweep_group aff p _ _ _) as [o s']. rewrite IH. reflexivity.
    Qed.
    Lemma mv_fill segs : fill_solve aff (map ms segs) = fill_solve aff segs.
    Proof.
      unfold fill_solve. rewrite map_length, enum_map, mv_starts. f_equal. apply (mv_sweep _ []).
    Qed.
    Lemma mv_links inc (segs : list (segment C)) fills : build_links inc (map ms segs) fills = map (mvl v) (build_links inc segs fills).
    Proof.
      unfold build_links. rewrite combine_map_l. rewrite (filter_map _ _ (fun sf => inc (snd sf))) by reflexivity. rewrite !map_map. reflexivity.
    Qed.
  End Fill.
End Move.
