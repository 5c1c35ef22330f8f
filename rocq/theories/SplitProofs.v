(** * Splitting: what [apply] does to a list of segments. *)
From Verif Require Import Base Spec QLib ModelSegm SegmProofs MergeProofs PlanarGeo PlanarSum ModelFill FillProofs ModelCross ModelSplit CoreResults.
Open Scope Z_scope.

(** ** Sums over the pieces of a segment *)
Section Sum.
  Context {C : Type} {WC : WindingCount C}.
  Variable f : C -> Z.
  Hypothesis f_inv : forall c, f (wc_invert c) = - f c.
  Variable w : pt -> pt -> Z.
  Hypothesis w_anti : forall a b, w a b = - w b a.

  Definition segval (s : segment C) : Z := f (sc s) * w (sa (sx s)) (sb (sx s)).

  Lemma create_val a b c : segval (create_and_validate a b c) = f c * w a b.
  Proof.
    unfold create_and_validate, segval. destruct (pt_ltb a b); simpl; auto. rewrite f_inv, (w_anti b a). ring.
  Qed.

  Lemma chop_val c : forall ms p b, zsum segval (chop c p ms b) = f c * polyline w p (ms ++ [b]).
  Proof.
    induction ms as [|m ms IH]; intros p b; cbn [chop app polyline].
    - rewrite zsum_cons, zsum_nil, create_val. ring.
    - rewrite zsum_cons, create_val, IH. ring.
  Qed.

  Lemma polyline_col (P : pt -> Prop) :
    (forall x y z, P x -> P y -> P z -> w x y + w y z = w x z) ->
    forall ms p b, P p -> P b -> Forall P ms -> polyline w p (ms ++ [b]) = w p b.
  Proof.
    intros A. induction ms as [|m ms IH]; intros p b Hp Hb F; cbn [app polyline].
    - ring.
    - inversion F; subst. rewrite IH; auto.
  Qed.
End Sum.

(** ** Lookup in the groups *)
Definition lookup (groups : list (nat * list pt)) (i : nat) : option (list pt) :=
  match find (fun g => (fst g =? i)%nat) groups with Some g => Some (snd g) | None => None end.

Fixpoint enum_from {A} (n : nat) (l : list A) : list (nat * A) :=
  match l with [] => [] | x :: r => (n, x) :: enum_from (S n) r end.
Lemma enum_from_enum {A} (l : list A) : enum l = enum_from 0 l.
Proof.
  unfold enum. generalize O. induction l as [|x l IH]; intro n; simpl; auto. rewrite IH. reflexivity.
Qed.

Lemma enum_from_nth {A} (l : list A) : forall n i x, In (i, x) (enum_from n l) <-> (n <= i)%nat /\ nth_error l (i - n) = Some x.
Proof.
  induction l as [|y l IH]; intros n i x; simpl.
  - split; [tauto|]. intros [_ H]. destruct (i - n)%nat; discriminate.
  - rewrite IH. split.
    + intros [H|[H1 H2]].
      * injection H as <- <-. split; auto. rewrite Nat.sub_diag. reflexivity.
      * split; [lia|]. replace (i - n)%nat with (S (i - S n)) by lia. exact H2.
    + intros [H1 H2]. destruct (Nat.eq_dec n i) as [->|N].
      * left. rewrite Nat.sub_diag in H2. simpl in H2. congruence.
      * right. split; [lia|]. replace (i - n)%nat with (S (i - S n)) in H2 by lia. exact H2.
Qed.
Lemma enum_nth {A} (l : list A) i x : In (i, x) (enum l) <-> nth_error l i = Some x.
Proof. rewrite enum_from_enum, enum_from_nth, Nat.sub_0_r. intuition lia. Qed.

Lemma enum_from_app {A} (l m : list A) : forall n, enum_from n (l ++ m) = enum_from n l ++ enum_from (n + length l) m.
Proof.
  induction l as [|x l IH]; intro n; simpl; [rewrite Nat.add_0_r; auto|].
  f_equal. rewrite IH. do 2 f_equal. lia.
Qed.
Lemma enum_from_map {A B} (h : A -> B) (l : list A) : forall n, enum_from n (map h l) = map (fun x => (fst x, h (snd x))) (enum_from n l).
Proof. induction l as [|x l IH]; intro n; simpl; auto. rewrite IH. reflexivity. Qed.
Lemma enum_map {A B} (h : A -> B) (l : list A) : enum (map h l) = map (fun x => (fst x, h (snd x))) (enum l).
Proof. rewrite !enum_from_enum. apply enum_from_map. Qed.

Lemma set_nth_app {A} (l m : list A) i x : (i < length l)%nat -> set_nth i x (l ++ m) = set_nth i x l ++ m.
Proof.
  revert i. induction l as [|y l IH]; intros [|i] H; simpl in *; try lia; auto. rewrite IH by lia. reflexivity.
Qed.
Lemma set_nth_mid {A} (l m : list A) x y : set_nth (length l) x (l ++ y :: m) = l ++ x :: m.
Proof. induction l as [|z l IH]; simpl; auto. rewrite IH. reflexivity. Qed.
Lemma set_nth_length {A} i (x : A) l : length (set_nth i x l) = length l.
Proof. revert i. induction l as [|y l IH]; intros [|i]; simpl; auto. Qed.

Section Pieces.
  Context {C : Type} {WC : WindingCount C}.

  Definition pieces (s : segment C) (o : option (list pt)) : list (segment C) :=
    match o with Some ps => chop (sc s) (sa (sx s)) ps (sb (sx s)) | None => [s] end.
  Definition all_pieces (groups : list (nat * list pt)) (l : list (nat * segment C)) : list (segment C) :=
    flat_map (fun x => pieces (snd x) (lookup groups (fst x))) l.

  Lemma chop_cons c p ms b : exists e0 rest, chop c p ms b = e0 :: rest.
  Proof. destruct ms; simpl; eauto. Qed.

  Lemma lookup_cons k ps gs i : lookup ((k, ps) :: gs) i = if (k =? i)%nat then Some ps else lookup gs i.
  Proof. unfold lookup; simpl. destruct (k =? i)%nat; auto. Qed.

  Lemma lookup_none gs i : ~ In i (map fst gs) -> lookup gs i = None.
  Proof.
    induction gs as [|[k ps] gs IH]; simpl; intro H; auto. rewrite lookup_cons.
    destruct (k =? i)%nat eqn:E; [apply Nat.eqb_eq in E; tauto|]. apply IH. tauto.
  Qed.

  Lemma lookup_some gs i ps : NoDup (map fst gs) -> In (i, ps) gs -> lookup gs i = Some ps.
  Proof.
    induction gs as [|[k qs] gs IH]; simpl; intros ND H; [destruct H|]. destruct H as [H|H].
    - injection H as -> ->. rewrite lookup_cons, Nat.eqb_refl. auto.
    - inversion ND; subst. rewrite lookup_cons. destruct (k =? i)%nat eqn:E; auto.
      apply Nat.eqb_eq in E. subst. exfalso. apply H2. apply (in_map fst) in H. auto.
  Qed.
  Lemma lookup_in gs i ps : lookup gs i = Some ps -> In (i, ps) gs.
  Proof.
    unfold lookup. destruct (find _ gs) as [[k qs]|] eqn:E; [|discriminate]. intro H. injection H as <-.
    apply find_some in E as [E1 E2]. simpl in *. apply Nat.eqb_eq in E2. subst. auto.
  Qed.

  Lemma all_pieces_ext gs gs' l : (forall x, In x l -> lookup gs (fst x) = lookup gs' (fst x)) ->
    all_pieces gs l = all_pieces gs' l.
  Proof.
    intro H. unfold all_pieces. induction l as [|x l IH]; simpl; auto.
    rewrite H by (simpl; auto). f_equal. apply IH. intros; apply H; simpl; auto.
  Qed.
  Lemma all_pieces_app gs l m : all_pieces gs (l ++ m) = all_pieces gs l ++ all_pieces gs m.
  Proof. apply flat_map_app. Qed.

  Lemma split_edge_perm groups : forall l ext, NoDup (map fst groups) ->
    Forall (fun g => (fst g < length l)%nat) groups ->
    Permutation (fold_left split_edge groups (l ++ ext)) (all_pieces groups (enum_from 0 l) ++ ext).
  Proof.
    induction groups as [|[k ps] gs IH]; intros l ext ND F.
    - simpl. apply Permutation_app_tail. unfold all_pieces. simpl.
      replace (flat_map _ (enum_from 0 l)) with l; auto.
      generalize O. clear. induction l as [|x l IH]; intro n; simpl; auto. f_equal. apply IH.
    - inversion ND as [|? ? N1 N2]; subst. inversion F as [|? ? F1 F2]; subst. simpl in F1. simpl fst in N1.
      simpl fold_left. unfold split_edge at 2. cbn [fst snd].
      rewrite nth_error_app1 by auto.
      destruct (nth_error l k) as [s|] eqn:E; [|apply nth_error_None in E; lia].
      destruct (chop_cons (sc s) (sa (sx s)) ps (sb (sx s))) as (e0 & rest & Ec). rewrite Ec.
      rewrite set_nth_app by auto. rewrite <- app_assoc.
      rewrite IH; auto.
      2:{ rewrite set_nth_length. auto. }
      apply nth_error_split in E as (l1 & l2 & -> & <-).
      rewrite set_nth_mid, !enum_from_app. simpl enum_from. rewrite !all_pieces_app.
      change (all_pieces gs ((length l1, e0) :: enum_from (S (length l1)) l2))
        with (pieces e0 (lookup gs (length l1)) ++ all_pieces gs (enum_from (S (length l1)) l2)).
      change (all_pieces ((length l1, ps) :: gs) ((length l1, s) :: enum_from (S (length l1)) l2))
        with (pieces s (lookup ((length l1, ps) :: gs) (length l1)) ++ all_pieces ((length l1, ps) :: gs) (enum_from (S (length l1)) l2)).
      rewrite (lookup_none gs) by auto. rewrite lookup_cons, Nat.eqb_refl. simpl pieces. rewrite Ec.
      rewrite (all_pieces_ext ((length l1, ps) :: gs) gs (enum_from 0 l1)).
      2:{ intros [i x] I. apply enum_from_nth in I as [_ I]. rewrite lookup_cons. simpl fst.
          destruct (length l1 =? i)%nat eqn:E; auto. apply Nat.eqb_eq in E. subst.
          assert (nth_error l1 (length l1 - 0) <> None) by congruence. apply nth_error_Some in H. lia. }
      rewrite (all_pieces_ext ((length l1, ps) :: gs) gs (enum_from (S (length l1)) l2)).
      2:{ intros [i x] I. apply enum_from_nth in I as [I _]. rewrite lookup_cons. simpl fst.
          destruct (length l1 =? i)%nat eqn:E; auto. apply Nat.eqb_eq in E. lia. }
      simpl app. rewrite <- !app_assoc. apply Permutation_app_head. simpl. constructor.
      rewrite !app_assoc. rewrite (Permutation_app_comm rest). rewrite <- app_assoc.
      rewrite <- !app_assoc. apply Permutation_app_head. apply Permutation_app_comm.
  Qed.

  Lemma split_edges_perm groups l : NoDup (map fst groups) ->
    Forall (fun g => (fst g < length l)%nat) groups ->
    Permutation (fold_left split_edge groups l) (all_pieces groups (enum l)).
  Proof.
    intros ND F. rewrite enum_from_enum. pose proof (split_edge_perm groups l [] ND F) as H.
    rewrite !app_nil_r in H. auto.
  Qed.

  (** the bucketed path writes the same pieces *)
  Lemma emit_pieces l : forall n groups,
    StronglySorted (fun g h => (fst g < fst h)%nat) groups ->
    Forall (fun g => (n <= fst g)%nat) groups ->
    emit (enum_from n l) groups = all_pieces groups (enum_from n l).
  Proof.
    induction l as [|s l IH]; intros n groups S F; [reflexivity|].
    simpl enum_from. cbn [emit]. unfold all_pieces. cbn [flat_map fst snd]. fold (all_pieces groups (enum_from (Datatypes.S n) l)).
    destruct groups as [|[k ps] gs].
    - simpl. f_equal. rewrite IH; constructor.
    - inversion S as [|? ? S1 S2]; subst. inversion F as [|? ? F1 F2]; subst. simpl in F1.
      destruct (n =? k)%nat eqn:E.
      + apply Nat.eqb_eq in E. subst k. rewrite lookup_cons, Nat.eqb_refl. cbn [pieces]. f_equal.
        rewrite IH; auto.
        apply all_pieces_ext. intros [i x] I. apply enum_from_nth in I as [I _]. rewrite lookup_cons. simpl fst.
        destruct (n =? i)%nat eqn:E; auto. apply Nat.eqb_eq in E. lia.
      + apply Nat.eqb_neq in E. rewrite lookup_none.
        * simpl. f_equal. apply IH; auto. constructor; [simpl; lia|].
          eapply Forall_impl; [|exact S2]. simpl. intros; lia.
        * simpl. intros [I|I]; [lia|]. apply in_map_iff in I as ([i x] & <- & I). rewrite Forall_forall in S2.
          specialize (S2 _ I). simpl in *. lia.
  Qed.
End Pieces.

(** ** Groups of marks *)
Lemma runs_nonempty {A} (same : A -> A -> bool) l : Forall (fun g => g <> []) (runs same l).
Proof.
  induction l as [|x l IH]; simpl; [constructor|].
  destruct (runs same l) as [|[|y g] gs]; try (repeat constructor; discriminate).
  inversion IH; subst. destruct (same x y); repeat constructor; auto; discriminate.
Qed.

Lemma runs_concat {A} (same : A -> A -> bool) l : concat (runs same l) = l.
Proof.
  induction l as [|x l IH]; simpl; auto. pose proof (runs_nonempty same l) as NE.
  destruct (runs same l) as [|[|y g] gs] eqn:E.
  - simpl in *. subst. auto.
  - inversion NE; congruence.
  - destruct (same x y); simpl in *; rewrite IH; reflexivity.
Qed.

(** keys *)
Section Runs.
  Context {A K : Type} (key : A -> K) (eqk : K -> K -> bool).
  Hypothesis eqk_eq : forall a b, eqk a b = true <-> a = b.
  Let same x y := eqk (key x) (key y).

  Lemma runs_key l : Forall (fun g => forall x y, In x g -> In y g -> key x = key y) (runs same l).
  Proof.
    induction l as [|x l IH]; simpl; [constructor|].
    destruct (runs same l) as [|[|y g] gs].
    - repeat constructor. intros a b [<-|[]] [<-|[]]. auto.
    - repeat constructor. intros a b [<-|[]] [<-|[]]. auto.
    - inversion IH as [|? ? I1 I2]; subst. destruct (same x y) eqn:E.
      + apply eqk_eq in E. constructor; auto. intros a b [<-|Ha] [<-|Hb]; auto.
        * rewrite E. apply I1; simpl; auto.
        * rewrite E. apply I1; simpl; auto.
      + constructor; auto. intros a b [<-|[]] [<-|[]]. auto.
  Qed.

  Variable ltk : K -> K -> Prop.
  Hypothesis ltk_trans : forall a b c, ltk a b -> ltk b c -> ltk a c.

  Lemma runs_sorted l : StronglySorted (fun x y => ltk (key x) (key y) \/ key x = key y) l ->
    StronglySorted (fun g h => forall x y, In x g -> In y h -> ltk (key x) (key y)) (runs same l).
  Proof.
    induction l as [|x l IH]; intro S; simpl; [constructor|].
    inversion S as [|? ? S1 S2]; subst. specialize (IH S1).
    pose proof (runs_concat same l) as RC. pose proof (runs_key l) as RK.
    destruct (runs same l) as [|[|y g] gs] eqn:ER.
    - repeat constructor.
    - exfalso. pose proof (runs_nonempty same l) as NE. rewrite ER in NE. inversion NE; subst. congruence.
    - inversion IH as [|? ? I1 I2]; subst. inversion RK as [|? ? K1 K2]; subst.
      destruct (same x y) eqn:E.
      + apply eqk_eq in E. constructor; auto. eapply Forall_impl; [|exact I2]. cbv beta. intros h Hh a b [<-|Ha] Hb; auto.
        rewrite E. apply Hh; simpl; auto.
      + constructor; [exact IH|]. apply Forall_forall. intros h Hh a b [<-|[]] Hb.
        rewrite Forall_forall in S2.
        assert (Hy : ltk (key x) (key y)).
        { destruct (S2 y) as [L|L]; auto.
          - apply in_concat. exists (y :: g). simpl; auto.
          - exfalso. assert (same x y = true) by (apply eqk_eq; auto). congruence. }
        destruct Hh as [<-|Hh].
        * rewrite <- (K1 y b); simpl; auto.
        * eapply ltk_trans; [exact Hy|]. rewrite Forall_forall in I2. apply (I2 h Hh y b); simpl; auto.
  Qed.
End Runs.

Lemma dedup_in l m : In m (dedup l) <-> In m l.
Proof.
  induction l as [|x l IH]; simpl; [tauto|].
  destruct (dedup l) as [|y r] eqn:E.
  - simpl in *. tauto.
  - destruct (mark_eqb x y) eqn:Q.
    + assert (x = y) as ->. { unfold mark_eqb in Q. apply andb_true_iff in Q as [Q1 Q2]. apply Nat.eqb_eq in Q1. apply pt_eqb_eq in Q2. destruct x, y; simpl in *; congruence. }
      rewrite <- IH. simpl. tauto.
    + simpl in *. rewrite <- IH. tauto.
Qed.

Definition mark_lt (m n : mark) : Prop := (fst m < fst n)%nat \/ (fst m = fst n /\ pt_lt (snd m) (snd n)).
Lemma mark_leb_le m n : mark_leb m n = true <-> mark_lt m n \/ m = n.
Proof.
  unfold mark_leb, mark_lt. rewrite orb_true_iff, andb_true_iff, Nat.ltb_lt, Nat.eqb_eq.
  destruct m as [i p], n as [j q]; simpl. split.
  - intros [H|[-> H]]; auto. destruct (pt_eq_dec p q) as [->|N]; auto. left. right. split; auto. apply pt_leb_lt; auto.
  - intros [[H|[-> H]]|H]; auto.
    + right. split; auto. unfold pt_leb. apply pt_ltb_lt in H. rewrite H. auto.
    + injection H as -> ->. right. split; auto. apply pt_leb_refl.
Qed.
Lemma mark_lt_trans a b c : mark_lt a b -> mark_lt b c -> mark_lt a c.
Proof.
  unfold mark_lt. intros [H|[H H']] [K|[K K']]; try (left; lia).
  right. split; [lia|]. eapply pt_lt_trans; eauto.
Qed.
Lemma mark_lt_irrefl a : ~ mark_lt a a.
Proof. intros [H|[_ H]]; [lia|]. eapply pt_lt_irrefl; eauto. Qed.

Lemma dedup_sorted l : StronglySorted (fun m n => mark_leb m n = true) l -> StronglySorted mark_lt (dedup l).
Proof.
  induction l as [|x l IH]; intro S; simpl; [constructor|].
  inversion S as [|? ? S1 S2]; subst. specialize (IH S1).
  assert (F : Forall (fun n => mark_lt x n \/ x = n) (dedup l)).
  { apply Forall_forall. intros n I. apply (proj1 (dedup_in l n)) in I. rewrite Forall_forall in S2. exact (proj1 (mark_leb_le _ _) (S2 n I)). }
  destruct (dedup l) as [|y r] eqn:E; [repeat constructor|].
  destruct (mark_eqb x y) eqn:Q; auto.
  constructor; auto. inversion F as [|? ? F1 F2]; subst. inversion IH as [|? ? I1 I2]; subst.
  assert (L : mark_lt x y).
  { destruct F1 as [L|L]; auto. subst. unfold mark_eqb in Q. rewrite Nat.eqb_refl, pt_eqb_refl in Q. discriminate. }
  constructor; auto. eapply Forall_impl; [|exact I2]. intros n Hn. eapply mark_lt_trans; eauto.
Qed.

Lemma marks_sorted ms : StronglySorted mark_lt (dedup (isort mark_leb ms)).
Proof.
  apply dedup_sorted. apply isort_sorted.
  - intros a b. destruct a as [i p], b as [j q]. unfold mark_leb; simpl.
    destruct (lt_eq_lt_dec i j) as [[H| ->]|H].
    + left. apply orb_true_iff. left. apply Nat.ltb_lt; auto.
    + rewrite Nat.ltb_irrefl, Nat.eqb_refl. simpl. apply pt_leb_total.
    + right. apply orb_true_iff. left. apply Nat.ltb_lt; auto.
  - intros a b c H1 H2. apply mark_leb_le in H1, H2. apply mark_leb_le.
    destruct H1 as [H1| ->]; auto. destruct H2 as [H2|<-]; auto. left. eapply mark_lt_trans; eauto.
Qed.

Lemma order_groups_perm s gs : forall y0, Permutation (order_groups y0 s gs) (concat gs).
Proof.
  induction gs as [|g gs IH]; intro y0; simpl; auto.
  apply Permutation_app; auto. destruct (_ >? _); auto. symmetry. apply Permutation_rev.
Qed.
Lemma sort_sub_marks_perm s ps : Permutation (sort_sub_marks s ps) ps.
Proof. unfold sort_sub_marks. rewrite order_groups_perm, runs_concat. auto. Qed.

Lemma SS_app_l {A} (R : A -> A -> Prop) l m : StronglySorted R (l ++ m) -> StronglySorted R l.
Proof. induction l as [|x l IH]; simpl; intro S; [constructor|]. inversion S; subst. constructor; auto. apply Forall_app in H2 as [H2 _]; auto. Qed.
Lemma SS_app_r {A} (R : A -> A -> Prop) l m : StronglySorted R (l ++ m) -> StronglySorted R m.
Proof. induction l as [|x l IH]; simpl; intro S; auto. inversion S; subst. auto. Qed.
Lemma SS_concat {A} (R : A -> A -> Prop) gs g : StronglySorted R (concat gs) -> In g gs -> StronglySorted R g.
Proof.
  induction gs as [|h gs IH]; simpl; intros S []; subst.
  - eapply SS_app_l; eauto.
  - apply IH; auto. eapply SS_app_r; eauto.
Qed.

Section Groups.
  Variable segs : list xseg.
  Variable ms : list mark.
  Let gs := sort_and_filter_marks segs ms.
  Let rs := runs (fun m n => fst m =? fst n)%nat (dedup (isort mark_leb ms)).

  Lemma rs_key : Forall (fun g => forall x y : mark, In x g -> In y g -> fst x = fst y) rs.
  Proof. apply (runs_key fst Nat.eqb). intros; apply Nat.eqb_eq. Qed.
  Lemma rs_sorted : StronglySorted (fun g h => forall x y : mark, In x g -> In y h -> (fst x < fst y)%nat) rs.
  Proof.
    apply (runs_sorted fst Nat.eqb) with (ltk := lt).
    - intros; apply Nat.eqb_eq.
    - intros; lia.
    - eapply SS_impl_in; [|apply marks_sorted]. intros x y _ _ [H|[H _]]; auto.
  Qed.

  (** the marks of segment [i] *)
  Lemma group_spec i ps : In (i, ps) gs <->
    exists r, ps = sort_sub_marks (nth i segs (XS (Pt 0 0) (Pt 0 0))) (map snd r) /\ In r rs /\ r <> [] /\ Forall (fun m => fst m = i) r.
  Proof.
    unfold gs, sort_and_filter_marks. fold rs. rewrite in_map_iff.
    assert (NE : forall r, In r rs -> r <> []) by (intros r; pose proof (runs_nonempty (fun m n : mark => fst m =? fst n)%nat (dedup (isort mark_leb ms))) as H; rewrite Forall_forall in H; apply H).
    pose proof rs_key as RK. rewrite Forall_forall in RK.
    split.
    - intros ([|[k p] r] & E & I).
      + exfalso. apply (NE _ I). auto.
      + injection E as <- <-. exists ((k, p) :: r). repeat split; auto. apply Forall_forall. intros m Hm.
        apply (RK _ I m (k, p)); simpl; auto.
    - intros (r & -> & I & N & F). exists r. split; auto. destruct r as [|[k p] r]; [exfalso; apply N; reflexivity|].
      inversion F as [|? ? F1 F2]; subst. reflexivity.
  Qed.

  Lemma groups_sorted : StronglySorted (fun g h => (fst g < fst h)%nat) gs.
  Proof.
    unfold gs, sort_and_filter_marks. fold rs. pose proof rs_sorted as S.
    assert (NE : Forall (fun g => g <> []) rs) by apply runs_nonempty.
    clearbody rs. revert NE. induction S as [|g l S IH F]; intro NE; simpl; constructor.
    - apply IH. exact (Forall_inv_tail NE).
    - apply Forall_map. pose proof (Forall_inv NE) as N1. pose proof (Forall_inv_tail NE) as N2. clear NE. cbv beta in N1. rewrite Forall_forall in F, N2. apply Forall_forall. intros h Hh.
      specialize (F h Hh). specialize (N2 h Hh). destruct g as [|[i p] g]; [exfalso; apply N1; reflexivity|]. destruct h as [|[j q] h]; [exfalso; apply N2; reflexivity|].
      simpl. apply (F (i, p) (j, q)); simpl; auto.
  Qed.
  Lemma groups_nodup : NoDup (map fst gs).
  Proof.
    pose proof groups_sorted as S. induction S as [|g l S IH F]; simpl; constructor; auto.
    intro I. apply in_map_iff in I as (h & E & I). rewrite Forall_forall in F. specialize (F h I). lia.
  Qed.

  Lemma in_rs m : In m ms <-> exists r, In r rs /\ In m r.
  Proof.
    transitivity (In m (concat rs)).
    - unfold rs. rewrite runs_concat, dedup_in, isort_in. tauto.
    - rewrite in_concat. tauto.
  Qed.

  (** [lookup] returns exactly the marked points of a segment, without repetition *)
  Lemma lookup_spec i ps : lookup gs i = Some ps ->
    ps <> [] /\ (forall p, In p ps <-> In (i, p) ms) /\ NoDup ps /\
    exists qs, ps = sort_sub_marks (nth i segs (XS (Pt 0 0) (Pt 0 0))) qs /\ StronglySorted pt_lt qs.
  Proof.
    intro L. apply lookup_in in L. apply group_spec in L as (r & E & I & N & F).
    assert (Sr : StronglySorted mark_lt r).
    { apply (SS_concat mark_lt rs); auto. unfold rs. rewrite runs_concat. apply marks_sorted. }
    assert (Sq : StronglySorted pt_lt (map snd r)).
    { clear - Sr F. induction Sr as [|m r S IH G]; simpl; [constructor|]. inversion F as [|? ? F1 F2]; subst.
      constructor; auto. apply Forall_map. rewrite Forall_forall in *. intros n Hn. destruct (G n Hn) as [G1|[_ G1]]; auto.
      rewrite (F2 n Hn) in G1. lia. }
    pose proof (sort_sub_marks_perm (nth i segs (XS (Pt 0 0) (Pt 0 0))) (map snd r)) as P. rewrite <- E in P.
    repeat split.
    - intro Z. rewrite Z in P. apply Permutation_nil in P. destruct r; [apply N; reflexivity|discriminate].
    - intro Hp. apply (Permutation_in _ P) in Hp. apply in_map_iff in Hp as ([k q] & <- & Hq).
      rewrite Forall_forall in F. specialize (F _ Hq). simpl in F. subst k. apply in_rs. eauto.
    - intro Hm. apply in_rs in Hm as (r' & I' & Hm). apply (Permutation_in _ (Permutation_sym P)).
      assert (r' = r) as ->.
      { (* same index => same run *)
        destruct r as [|m0 r0]; [exfalso; apply N; reflexivity|]. inversion F as [|? ? F1 F2]; subst.
        assert (In m0 (m0 :: r0)) as Hm0 by (simpl; auto).
        revert I I' Hm Hm0. pose proof rs_sorted as S. clear - S. clearbody rs. revert r'.
        induction S as [|g l S IH G]; intros r' I I' Hm Hm0; [destruct I|]. specialize (IH r').
        rewrite Forall_forall in G. destruct I as [I|I], I' as [I'|I']; auto; subst; auto.
        - specialize (G _ I' _ _ Hm0 Hm). simpl in G. lia.
        - specialize (G _ I _ _ Hm Hm0). simpl in G. lia. }
      apply in_map_iff. exists (i, p). auto.
    - eapply Permutation_NoDup; [symmetry; exact P|]. clear - Sq. induction Sq as [|p l S IH F]; constructor; auto.
      intro I. rewrite Forall_forall in F. exact (pt_lt_irrefl _ (F _ I)).
    - exists (map snd r). auto.
  Qed.

  Lemma lookup_none_spec i : lookup gs i = None -> forall p, ~ In (i, p) ms.
  Proof.
    intros L p I. apply in_rs in I as (r & Ir & Im).
    assert (G : In (i, sort_sub_marks (nth i segs (XS (Pt 0 0) (Pt 0 0))) (map snd r)) gs).
    { apply group_spec. exists r. repeat split; auto.
      - intros ->. destruct Im.
      - pose proof rs_key as RK. rewrite Forall_forall in RK. apply Forall_forall. intros m Hm. apply (RK r Ir m (i, p)); auto. }
    rewrite (lookup_some _ _ _ groups_nodup G) in L. discriminate.
  Qed.

  Lemma groups_range n : (forall m, In m ms -> (fst m < n)%nat) -> Forall (fun g => (fst g < n)%nat) gs.
  Proof.
    intro H. apply Forall_forall. intros [i ps] I. apply group_spec in I as (r & _ & Ir & N & F).
    destruct r as [|[k p] r]; [exfalso; apply N; reflexivity|]. pose proof (Forall_inv F) as F1. simpl in *. subst k.
    apply (H (i, p)). apply in_rs. exists ((i, p) :: r). simpl; auto.
  Qed.
End Groups.
