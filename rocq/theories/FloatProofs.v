(** * Proofs about the floating point interface. *)
From Verif Require Import Base Spec QLib ModelSegm CoreResults ModelFill ModelFilter ModelSplit ModelOverlay OverlayProofs ModelGraph ModelExtract ModelBind ModelString ModelSlice
  SplitNear FloatSpace ModelFloat.
From Coq Require Import QArith Lqa Qabs.
Open Scope Z_scope.

(** ** Iterators *)
(** the contours of a resource, in order *)
Definition paths_of (r : resource) : list (list qpt) := match r with Contour c => [c] | Contours cs => cs | Shapes shapes => concat shapes end.

Lemma skipn_cons {A} (l : list A) : forall i x, nth_error l i = Some x -> skipn i l = x :: skipn (S i) l.
Proof. induction l as [|y l IH]; intros [|i] x H; try discriminate; [injection H as ->; auto|]. apply IH; auto. Qed.
Lemma drain_double {P} (cs : list (list P)) : forall n i, (length cs - i < n)%nat -> drain n double_next (Double cs i) = Some (skipn i cs).
Proof.
  induction n as [|n IH]; intros i L; [lia|]. cbn [drain]. unfold double_next at 1. cbn [d_slice d_index].
  destruct (Nat.leb_spec (length cs) i) as [G|G].
  - rewrite skipn_all2 by lia. auto.
  - destruct (nth_error cs i) as [x|] eqn:E; [|apply nth_error_None in E; lia]. rewrite IH by lia. rewrite (skipn_cons _ _ _ E). auto.
Qed.
Lemma triple_loop_skip {P} (ss : list (list (list P))) : forall n i j, (length ss - i < n)%nat ->
  (triple_loop n (Triple ss i j) = Stop /\ skipn j (nth i ss []) ++ concat (skipn (S i) ss) = []) \/
  exists i' j' x, triple_loop n (Triple ss i j) = Yield x (Triple ss i' j') /\
    skipn j (nth i ss []) ++ concat (skipn (S i) ss) = x :: skipn j' (nth i' ss []) ++ concat (skipn (S i') ss).
Proof.
  induction n as [|n IH]; intros i j L; [lia|]. cbn [triple_loop t_slice t_i t_j]. destruct (Nat.ltb_spec i (length ss)) as [G|G].
  - destruct (nth_error ss i) as [sub|] eqn:E; [|apply nth_error_None in E; lia]. rewrite (nth_error_nth _ _ [] E).
    destruct (Nat.ltb_spec j (length sub)) as [G'|G'].
    + destruct (nth_error sub j) as [x|] eqn:E'; [|apply nth_error_None in E'; lia]. right. exists i, (S j), x. split; auto. rewrite (nth_error_nth _ _ [] E). rewrite (skipn_cons _ _ _ E'). auto.
    + rewrite skipn_all2 by lia. cbn [app].
      assert (Z : concat (skipn (S i) ss) = skipn 0 (nth (S i) ss []) ++ concat (skipn (S (S i)) ss)).
      { destruct (nth_error ss (S i)) as [sub'|] eqn:E'; [rewrite (skipn_cons _ _ _ E'), (nth_error_nth _ _ [] E'); auto|].
        apply nth_error_None in E'. rewrite nth_overflow by lia. rewrite (skipn_all2 ss) by lia. rewrite (skipn_all2 ss) by lia. auto. }
      rewrite Z. apply IH. lia.
  - left. split; auto. rewrite nth_overflow by lia. rewrite (skipn_all2 ss) by lia. rewrite skipn_nil. auto.
Qed.
Lemma drain_triple {P} (ss : list (list (list P))) : forall n i j, (length (skipn j (nth i ss []) ++ concat (skipn (S i) ss)) < n)%nat ->
  drain n triple_next (Triple ss i j) = Some (skipn j (nth i ss []) ++ concat (skipn (S i) ss)).
Proof.
  induction n as [|n IH]; intros i j L; [lia|]. cbn [drain]. unfold triple_next at 1. cbn [t_slice].
  destruct (triple_loop_skip ss (S (length ss)) i j ltac:(lia)) as [[E Z]|(i' & j' & x & E & Z)]; rewrite E; [rewrite Z; auto|].
  rewrite Z in L. cbn [length] in L. rewrite IH by lia. rewrite Z. auto.
Qed.
Lemma iter_ok calls r : (length (paths_of r) < calls)%nat -> iter_paths calls r = Some (paths_of r).
Proof.
  destruct r as [c|cs|ss]; cbn [paths_of iter_paths]; intro L.
  - destruct calls as [|[|n]]; cbn in L; try lia. reflexivity.
  - unfold double_new. rewrite drain_double by lia. auto.
  - unfold triple_new. assert (Z : concat ss = skipn 0 (nth 0 ss []) ++ concat (skipn 1 ss)) by (destruct ss; auto).
    rewrite Z in L |- *. apply drain_triple; auto.
Qed.

(** ** The grid in the plane of the floating point numbers *)
(** the place of the grid point [p]: cells of size [s], the origin of the grid at [o] *)
Definition place (s : Q) (o : qpt) (p : pt) : qpt := (fst o + s * qx p, snd o + s * qy p)%Q.
Definition unplace (s : Q) (o : qpt) (q : qpt) : qpt := ((fst q - fst o) / s, (snd q - snd o) / s)%Q.
Section Grid.
  Variables (s : Q) (o : qpt).
  Hypothesis Hs : (0 < s)%Q.
  Lemma le_scale x y : (s * x <= s * y <-> x <= y)%Q.
  Proof. split; intro H; [apply (Qmult_le_l x y s); auto|apply (Qmult_le_l x y s); auto]. Qed.
  Lemma unplace_x q : (fst q == fst o + s * fst (unplace s o q))%Q. Proof. cbn. field. lra. Qed.
  Lemma unplace_y q : (snd q == snd o + s * snd (unplace s o q))%Q. Proof. cbn. field. lra. Qed.
  Lemma left_place q p : qleft q (place s o p) = lef (unplace s o q) p.
  Proof.
    unfold qleft, lef. apply eq_true_iff_eq. rewrite !Qle_bool_iff. rewrite (unplace_x q). cbn [fst place].
    rewrite <- (le_scale (qx p)). lra.
  Qed.
  Lemma edge_place q a b : qedge_wind q (place s o a, place s o b) = edge_wind (unplace s o q) (a, b).
  Proof.
    rewrite edge_wind_lef. unfold qedge_wind. cbn [fst snd]. rewrite !left_place.
    destruct (lef_cases (unplace s o q) a) as [[Ea La]|[Ea La]], (lef_cases (unplace s o q) b) as [[Eb Lb]|[Eb Lb]]; rewrite Ea, Eb; cbn [bz]; try lia; do 2 f_equal;
    (unfold Qltb; f_equal; apply eq_true_iff_eq; rewrite !Qle_bool_iff; rewrite (unplace_y q);
     assert (E : (qheight q (place s o a) (place s o b) == snd o + s * hgt (unplace s o q) a b)%Q) by
       (unfold qheight, hgt, height; rewrite (unplace_x q); cbn [fst snd place sa sb]; field; repeat split; nra || lra || idtac);
     rewrite E, <- (le_scale (snd (unplace s o q))); lra).
  Qed.
  Lemma ring_edges c : ring c = edges c. Proof. destruct c; reflexivity. Qed.
  Lemma contour_place c q : qcontour_wind (map (place s o) c) q = contour_wind c (unplace s o q).
  Proof.
    unfold qcontour_wind, contour_wind. rewrite ring_map, ring_edges. generalize (edges c). induction l as [|[a b] l IH]; auto.
    cbn [map]. rewrite !zsum_cons, IH. f_equal. apply edge_place.
  Qed.
  Lemma within_place d a b q : qwithin (s * d) (place s o a) (place s o b) q <-> within d a b (unplace s o q).
  Proof.
    assert (K : forall x y, (Qabs (s * x - s * y) <= s * d <-> Qabs (x - y) <= d)%Q).
    { intros x y. rewrite !Qabs_le_iff. rewrite <- (le_scale (- d)), <- (le_scale (x - y)). split; intros [P R]; split; lra. }
    split; intros (t & T & X & Y); exists t; (split; [auto|]); (split; [apply K|apply K] || split); cbn [fst snd place] in *;
      rewrite ?(unplace_x q), ?(unplace_y q) in *; cbn [fst snd unplace] in *.
    3,4: apply K in X; apply K in Y.
    1,3: (eapply Qle_trans; [apply Qle_lteq; right; apply Qabs_wd|exact X]; ring).
    1,2: (eapply Qle_trans; [apply Qle_lteq; right; apply Qabs_wd|exact Y]; ring).
  Qed.
End Grid.

(** ** The contract of the adapter *)
(** Cells of size [s], origin at [o].  A point given ([pts]) is put on a grid point whose place is at most [kappa] cells away, in x and in y
    ([kappa] is 1/2 plus the rounding error of the conversion), inside of the range of the integer overlay; the way back is exact up to [delta]. *)
Record adapter_ok (a : adapter) (s : Q) (o : qpt) (kappa delta : Q) (pts : list qpt) : Prop := {
  ok_s : (0 < s)%Q;
  ok_k : (0 <= kappa)%Q;
  ok_d : (0 <= delta)%Q;
  ok_in : forall p, In p pts -> close (s * kappa) (place s o (float_to_int a p)) p;
  ok_range : forall p, In p pts -> - 2 ^ 30 < px (float_to_int a p) < 2 ^ 30 /\ - 2 ^ 30 < py (float_to_int a p) < 2 ^ 30;
  ok_out : forall i, - 2 ^ 31 <= px i < 2 ^ 31 -> - 2 ^ 31 <= py i < 2 ^ 31 -> close delta (int_to_float a i) (place s o i);
  ok_zero : forall x, (x == 0)%Q -> sqr_float_to_int a x = 0 }.
(** the contract of [simplify_contour] for float shapes: winding numbers change at most [eta] away from the contours *)
Definition float_clean_ok (float_clean : adapter -> list (list (list qpt)) -> list (list (list qpt))) (a : adapter) (eta : Q) : Prop :=
  forall shapes q, far_from eta (concat shapes) q -> qcontours_wind (concat (float_clean a shapes)) q = qcontours_wind (concat shapes) q.

(** ** Contours given and contours on the grid *)
Definition snap (a : adapter) (fadds : list (list qpt * ShapeType)) : input := map (fun x => (map (float_to_int a) (fst x), snd x)) fadds.
Definition foperand (t : ShapeType) (fadds : list (list qpt * ShapeType)) : list (list qpt) :=
  map fst (filter (fun x => match snd x, t with Subject, Subject => true | Clip, Clip => true | _, _ => false end) fadds).

Lemma qwithin_close d e a b p q : qwithin d a b p -> close e p q -> qwithin (d + e) a b q.
Proof. intros (t & T & X & Y) [A B]. apply Qabs_le_iff in X, Y, A, B. exists t. split; auto. split; apply Qabs_le_iff; split; lra. Qed.
Lemma far_mono d d' cs q : (d <= d')%Q -> far_from d' cs q -> far_from d cs q.
Proof. intros L H c e Ic Ie W. apply (H c e Ic Ie). eapply qwithin_mono; eauto. Qed.
Lemma zsum_ext_in {A} (f g : A -> Z) l : (forall x, In x l -> f x = g x) -> zsum f l = zsum g l.
Proof. induction l as [|x l IH]; intro H; auto. rewrite !zsum_cons, H, IH; simpl; auto. intros; apply H; simpl; auto. Qed.
Lemma zsum_map {A B} (f : B -> Z) (g : A -> B) l : zsum f (map g l) = zsum (fun x => f (g x)) l.
Proof. induction l as [|x l IH]; auto. cbn [map]. rewrite !zsum_cons, IH. auto. Qed.

Section Adapter.
  Variables (a : adapter) (s : Q) (o : qpt) (kappa delta : Q) (fadds : list (list qpt * ShapeType)).
  Hypothesis Ok : adapter_ok a s o kappa delta (concat (map fst fadds)).
  Notation Hs := (ok_s _ _ _ _ _ _ Ok).
  Notation cs := (map fst fadds).

  Lemma in_pts c p : In c cs -> In p c -> In p (concat cs).
  Proof. intros Ic Ip. apply in_concat. eauto. Qed.
  Lemma snap_bounded : bounded_input (snap a fadds).
  Proof.
    apply Forall_forall. intros [c t] I. apply in_map_iff in I as ([c' t'] & E & I). injection E as <- <-. cbn [fst]. apply Forall_forall. intros p Ip.
    apply in_map_iff in Ip as (p' & <- & Ip). apply (ok_range _ _ _ _ _ _ Ok). eapply in_pts; eauto. apply in_map_iff. exists (c', t'). auto.
  Qed.
  (** winding numbers *)
  Lemma snap_contour c q : In c cs -> (forall e, In e (ring c) -> ~ qwithin (s * kappa) (fst e) (snd e) q) ->
    contour_wind (map (float_to_int a) c) (unplace s o q) = qcontour_wind c q.
  Proof.
    intros Ic W. rewrite <- contour_place by apply Hs. rewrite map_map. pose proof (ok_s _ _ _ _ _ _ Ok). pose proof (ok_k _ _ _ _ _ _ Ok).
    rewrite (contour_move (s * kappa) q (fun p => place s o (float_to_int a p)) (fun p => p) c); [rewrite map_id; auto| | |].
    - apply Qmult_le_0_compat; lra.
    - intros p Ip. apply (ok_in _ _ _ _ _ _ Ok). eapply in_pts; eauto.
    - rewrite map_id. auto.
  Qed.
  Lemma snap_operand t q : far_from (s * kappa) cs q -> contours_wind (operand t (snap a fadds)) (unplace s o q) = qcontours_wind (foperand t fadds) q.
  Proof.
    intro Fq. unfold contours_wind, qcontours_wind, operand, foperand, snap.
    assert (K : forall l, incl l fadds -> zsum (fun path => contour_wind path (unplace s o q)) (map fst (filter (fun x => match snd x, t with Subject, Subject => true | Clip, Clip => true | _, _ => false end) (map (fun x => (map (float_to_int a) (fst x), snd x)) l))) =
      zsum (fun c => qcontour_wind c q) (map fst (filter (fun x => match snd x, t with Subject, Subject => true | Clip, Clip => true | _, _ => false end) l))).
    { induction l as [|[c t'] l IH]; intro I; auto. cbn [map filter fst snd].
      assert (IH' := IH (fun x Hx => I x (or_intror Hx))).
      assert (Ic : In c cs) by (apply in_map_iff; exists (c, t'); split; auto; apply I; simpl; auto).
      destruct t', t; cbn [map fst]; rewrite ?zsum_cons; rewrite IH'; auto; f_equal; apply snap_contour; auto; intros e Ie; apply (Fq c e Ic Ie). }
    apply (K fadds). apply incl_refl.
  Qed.
End Adapter.
