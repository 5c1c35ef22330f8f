(** * Proofs about sorting and merging of segments ([segm/merge.rs]). *)
From Verif Require Import Base Spec QLib ModelSegm SegmProofs.
Open Scope Z_scope.

Section Lin.
  Context {C : Type} {WC : WindingCount C}.
  Variable f : C -> Z.
  Hypothesis f_add : forall a b, f (wc_add a b) = f a + f b.
  Hypothesis f_empty : forall c, wc_not_empty c = false -> f c = 0.
  Variable phi : xseg -> Z.

  Definition lin (l : list (segment C)) : Z := zsum (fun s => f (sc s) * phi (sx s)) l.

  Lemma merge_from_lin rest : forall prev, lin (merge_from prev rest) = lin (prev :: rest).
  Proof.
    unfold lin. induction rest as [|s r IH]; intro prev; simpl.
    - destruct (wc_not_empty (sc prev)) eqn:E; auto.
      rewrite zsum_cons, (f_empty _ E), zsum_nil. lia.
    - destruct (xseg_eqb (sx prev) (sx s)) eqn:E.
      + apply xseg_eqb_eq in E. rewrite IH, !zsum_cons. simpl. rewrite f_add, E. lia.
      + destruct (wc_not_empty (sc prev)) eqn:E2.
        * rewrite !zsum_cons, IH, zsum_cons. lia.
        * rewrite IH, !zsum_cons, (f_empty _ E2). lia.
  Qed.

  Lemma merge_scan_lin rest : forall prev, lin (merge_scan prev rest) = lin (prev :: rest).
  Proof.
    induction rest as [|s r IH]; intro prev; [reflexivity|].
    cbn [merge_scan]. destruct (xseg_eqb (sx prev) (sx s)).
    - apply merge_from_lin.
    - unfold lin in *. rewrite !zsum_cons, IH, zsum_cons. lia.
  Qed.

  Lemma merge_lin l : lin (merge_if_needed l) = lin l.
  Proof. destruct l; [reflexivity|apply merge_scan_lin]. Qed.

  Lemma sort_lin l : lin (sort_segments l) = lin l.
  Proof. apply zsum_perm, isort_perm. Qed.

  Lemma sort_merge_lin l : lin (sort_merge l) = lin l.
  Proof. unfold sort_merge. rewrite merge_lin. apply sort_lin. Qed.
End Lin.

Lemma wind_lin {C} (f : C -> Z) l q :
  wind (chain_of f l) q = lin f (fun x => bz (under x q)) l.
Proof.
  rewrite wind_chain_of. apply zsum_ext. intros s _. unfold bz. destruct (under (sx s) q); lia.
Qed.

Lemma boundary_lin {C} (f : C -> Z) l v :
  boundary (chain_of f l) v = lin f (fun x => bz (pt_eqb (sb x) v) - bz (pt_eqb (sa x) v)) l.
Proof. apply boundary_chain_of. Qed.

Section Sorted.
  Context {C : Type} {WC : WindingCount C}.

  Definition strict_sorted (l : list (segment C)) : Prop :=
    StronglySorted (fun s t => xseg_lt (sx s) (sx t)) l.

  Let le (s t : segment C) := seg_leb s t = true.

  Lemma merge_from_elems (P : xseg -> Prop) rest : forall prev,
    P (sx prev) -> Forall (fun s => P (sx s)) rest -> Forall (fun s => P (sx s)) (merge_from prev rest).
  Proof.
    induction rest as [|s r IH]; intros prev Hp Hr; simpl.
    - destruct (wc_not_empty _); auto.
    - inversion Hr; subst. destruct (xseg_eqb _ _); [apply IH; auto|].
      destruct (wc_not_empty _); auto.
  Qed.

  Lemma merge_scan_elems (P : xseg -> Prop) rest : forall prev,
    P (sx prev) -> Forall (fun s => P (sx s)) rest -> Forall (fun s => P (sx s)) (merge_scan prev rest).
  Proof.
    induction rest as [|s r IH]; intros prev Hp Hr; cbn [merge_scan]; [constructor; auto|].
    destruct (xseg_eqb _ _); [apply merge_from_elems; auto|].
    inversion Hr; subst. constructor; auto.
  Qed.

  Lemma merge_elems (P : xseg -> Prop) l :
    Forall (fun s => P (sx s)) l -> Forall (fun s => P (sx s)) (merge_if_needed l).
  Proof. destruct l; intro H; [constructor|]. inversion H; subst. apply merge_scan_elems; auto. Qed.

  Lemma merge_from_sorted rest : forall prev,
    StronglySorted le (prev :: rest) -> strict_sorted (merge_from prev rest).
  Proof.
    induction rest as [|s r IH]; intros prev H; simpl.
    - destruct (wc_not_empty _); repeat constructor.
    - inversion H as [|? ? Hsr Hall]; subst. inversion Hall as [|? ? Hps Hpr]; subst. inversion Hsr as [|? ? Hr Hsall]; subst.
      destruct (xseg_eqb (sx prev) (sx s)) eqn:E.
      + apply IH. constructor; auto.
      + assert (L : xseg_lt (sx prev) (sx s)).
        { apply xseg_eqb_neq in E. unfold le, seg_leb in Hps.
          apply xseg_leb_le in Hps. tauto. }
        destruct (wc_not_empty (sc prev)); [|apply IH; auto].
        constructor; [apply IH; auto|].
        apply (merge_from_elems (fun x => xseg_lt (sx prev) x)); auto.
        eapply Forall_impl; [|exact Hsall]. intros t Ht. unfold le, seg_leb in Ht.
        apply xseg_leb_le in Ht. destruct Ht as [Ht|Ht]; [eapply xseg_lt_trans; eauto|congruence].
  Qed.

  Lemma merge_scan_sorted rest : forall prev,
    StronglySorted le (prev :: rest) -> strict_sorted (merge_scan prev rest).
  Proof.
    induction rest as [|s r IH]; intros prev H; cbn [merge_scan]; [repeat constructor|].
    destruct (xseg_eqb (sx prev) (sx s)) eqn:E; [apply merge_from_sorted; auto|].
    inversion H as [|? ? Hsr Hall]; subst. inversion Hall as [|? ? Hps Hpr]; subst. inversion Hsr as [|? ? Hr Hsall]; subst.
    assert (L : xseg_lt (sx prev) (sx s)).
    { apply xseg_eqb_neq in E. unfold le, seg_leb in Hps. apply xseg_leb_le in Hps. tauto. }
    constructor; [apply IH; auto|].
    apply (merge_scan_elems (fun x => xseg_lt (sx prev) x)); auto.
    eapply Forall_impl; [|exact Hsall]. intros t Ht. unfold le, seg_leb in Ht.
    apply xseg_leb_le in Ht. destruct Ht as [Ht|Ht]; [eapply xseg_lt_trans; eauto|congruence].
  Qed.

  Lemma sort_segments_sorted l : StronglySorted le (sort_segments l).
  Proof.
    apply (isort_sorted seg_leb).
    - intros; apply xseg_leb_total.
    - intros x y z; apply xseg_leb_trans.
  Qed.

  Lemma merge_sorted l : StronglySorted le l -> strict_sorted (merge_if_needed l).
  Proof. destruct l; intro H; [constructor|apply merge_scan_sorted; auto]. Qed.

  Lemma sort_merge_sorted l : strict_sorted (sort_merge l).
  Proof. apply merge_sorted, sort_segments_sorted. Qed.

  Lemma merge_from_nonempty rest : forall prev, Forall (fun s => wc_not_empty (sc s) = true) (merge_from prev rest).
  Proof.
    induction rest as [|s r IH]; intro prev; simpl.
    - destruct (wc_not_empty _) eqn:E; auto.
    - destruct (xseg_eqb _ _); auto. destruct (wc_not_empty (sc prev)) eqn:E; auto.
  Qed.

  Lemma merge_nonempty l : Forall (fun s => wc_not_empty (sc s) = true) l ->
    Forall (fun s => wc_not_empty (sc s) = true) (merge_if_needed l).
  Proof.
    destruct l as [|s r]; intro H; [constructor|]. simpl.
    revert s H. induction r as [|t r IH]; intros s H; cbn [merge_scan]; auto.
    destruct (xseg_eqb _ _); [apply merge_from_nonempty|].
    inversion H; subst. constructor; auto.
  Qed.

  Lemma sort_merge_nonempty l : Forall (fun s => wc_not_empty (sc s) = true) l ->
    Forall (fun s => wc_not_empty (sc s) = true) (sort_merge l).
  Proof.
    intro H. apply merge_nonempty. unfold sort_segments.
    eapply Permutation_Forall; [apply Permutation_sym, isort_perm|exact H].
  Qed.

  Lemma sort_merge_elems (P : xseg -> Prop) l :
    Forall (fun s => P (sx s)) l -> Forall (fun s => P (sx s)) (sort_merge l).
  Proof.
    intro H. apply merge_elems. unfold sort_segments.
    eapply Permutation_Forall; [apply Permutation_sym, isort_perm|exact H].
  Qed.

  Lemma strict_sorted_NoDup l : strict_sorted l -> NoDup (map sx l).
  Proof.
    induction 1 as [|s l H IH Hs]; simpl; constructor; auto.
    intro I. apply in_map_iff in I as (t & Et & It).
    rewrite Forall_forall in Hs. specialize (Hs t It). rewrite Et in Hs.
    eapply xseg_lt_irrefl; eauto.
  Qed.

  (** strictly sorted lists with the same elements are equal *)
  Lemma strict_sorted_ext : forall l m, strict_sorted l -> strict_sorted m ->
    (forall s, In s l <-> In s m) -> l = m.
  Proof.
    induction l as [|s l IH]; intros [|t m] Hl Hm HE; auto.
    - exfalso. apply (HE t). left; auto.
    - exfalso. apply (HE s). left; auto.
    - inversion Hl as [|? ? Hl1 Hl2]; subst. inversion Hm as [|? ? Hm1 Hm2]; subst.
      rewrite Forall_forall in Hl2, Hm2.
      assert (s = t).
      { destruct (proj1 (HE s) (or_introl eq_refl)) as [|I1]; auto.
        destruct (proj2 (HE t) (or_introl eq_refl)) as [|I2]; auto.
        specialize (Hl2 _ I2). specialize (Hm2 _ I1). exfalso.
        eapply xseg_lt_irrefl, xseg_lt_trans; eauto. }
      subst t. f_equal. apply IH; auto.
      intro u. split; intro I.
      + destruct (proj1 (HE u) (or_intror I)) as [->|]; auto.
        exfalso. specialize (Hl2 _ I). eapply xseg_lt_irrefl; eauto.
      + destruct (proj2 (HE u) (or_intror I)) as [->|]; auto.
        exfalso. specialize (Hm2 _ I). eapply xseg_lt_irrefl; eauto.
  Qed.
End Sorted.

(** ** C05: the merged arrangement does not depend on the order of insertion *)
(** laws of the two winding counts; [wc_ok] is the range of the u8 mask of the string count
    ([segm/winding_count.rs:10-17]: only bits 0 and 1 are ever set) *)
Class WCLaws (C : Type) {WC : WindingCount C} := {
  wc_ok : C -> Prop;
  wc_add_comm : forall a b : C, wc_add a b = wc_add b a;
  wc_add_assoc : forall a b c : C, wc_add a (wc_add b c) = wc_add (wc_add a b) c;
  wc_add_zero : forall a : C, wc_add a (wc_new 0 0) = a;
  wc_zero : wc_not_empty (wc_new 0 0 : C) = false;
  wc_empty : forall a : C, wc_not_empty a = false -> a = wc_new 0 0;
  wc_ok_add : forall a b : C, wc_ok a -> wc_ok b -> wc_ok (wc_add a b);
  wc_ok_invert : forall a : C, wc_ok a -> wc_ok (wc_invert a);
  wc_ok_shape : forall t, wc_ok (fst (wc_with_shape t)) /\ wc_ok (snd (wc_with_shape t));
  wc_ne_invert : forall a : C, wc_ok a -> wc_not_empty a = true -> wc_not_empty (wc_invert a) = true }.

Lemma cntB_ext (a b : cntB) : subj a = subj b -> clip a = clip b -> a = b.
Proof. destruct a, b; simpl; congruence. Qed.
Lemma cntS_ext (a b : cntS) : ssubj a = ssubj b -> sclip a = sclip b -> a = b.
Proof. destruct a, b; simpl; congruence. Qed.

#[export] Instance WCL_B : WCLaws cntB.
Proof.
  refine {| wc_ok := fun _ => True |}; auto.
  - intros; apply cntB_ext; simpl; lia.
  - intros; apply cntB_ext; simpl; lia.
  - intros; apply cntB_ext; simpl; lia.
  - intros [x y] H. simpl in *. apply cntB_ext; simpl; lia.
  - intros [x y] _ H. simpl in *. lia.
Defined.

Lemma mask_cases m : (m < 4)%N -> m = 0%N \/ m = 1%N \/ m = 2%N \/ m = 3%N.
Proof. lia. Qed.
#[export] Instance WCL_S : WCLaws cntS.
Proof.
  refine {| wc_ok := fun c => (sclip c < 4)%N |}; auto.
  - intros; apply cntS_ext; simpl; [lia|apply N.lor_comm].
  - intros; apply cntS_ext; simpl; [lia|apply N.lor_assoc].
  - intros; apply cntS_ext; simpl; [lia|apply N.lor_0_r].
  - intros [x y] H. simpl in *. apply cntS_ext; simpl; [lia|]. destruct (N.eqb_spec y 0); auto. simpl in H. lia.
  - intros [x m] [y n] H H0. simpl in *.
    destruct (mask_cases m H) as [-> |[-> |[-> | ->]]], (mask_cases n H0) as [-> |[-> |[-> | ->]]]; reflexivity.
  - intros [x m] H. simpl in *. destruct (mask_cases m H) as [-> |[-> |[-> | ->]]]; reflexivity.
  - intros []; split; reflexivity.
  - intros [x m] H H0. simpl in *. destruct (mask_cases m H) as [-> |[-> |[-> | ->]]]; simpl in *; lia.
Defined.

Section Canon.
  Context {C : Type} {WC : WindingCount C} {WL : WCLaws C}.

  (** the sum of the counts stored with the edge [x] *)
  Definition total (x : xseg) (l : list (segment C)) : C :=
    fold_right (fun s acc => if xseg_eqb (sx s) x then wc_add (sc s) acc else acc) (wc_new 0 0) l.

  Lemma total_perm x l m : Permutation l m -> total x l = total x m.
  Proof.
    induction 1 as [|s l m P IH|s t l|l m n P1 IH1 P2 IH2]; simpl; auto.
    - rewrite IH. auto.
    - destruct (xseg_eqb (sx s) x), (xseg_eqb (sx t) x); auto.
      rewrite !wc_add_assoc. f_equal. apply wc_add_comm.
    - congruence.
  Qed.

  Lemma total_none x l : (forall s, In s l -> sx s <> x) -> total x l = wc_new 0 0.
  Proof.
    induction l as [|s l IH]; intro H; simpl; auto.
    replace (xseg_eqb (sx s) x) with false by (symmetry; apply xseg_eqb_neq; apply H; left; auto).
    apply IH. intros; apply H; right; auto.
  Qed.

  Lemma total_absorb x p s r : sx p = sx s ->
    total x (Seg (sx p) (wc_add (sc p) (sc s)) :: r) = total x (p :: s :: r).
  Proof.
    intro E. unfold total. cbn [fold_right sx sc]. rewrite <- E. destruct (xseg_eqb (sx p) x); auto.
    symmetry. apply wc_add_assoc.
  Qed.

  Lemma lt_above (p : segment C) (l : list (segment C)) : Forall (fun t => xseg_lt (sx p) (sx t)) l -> forall t, In t l -> sx t <> sx p.
  Proof. intros F t I E. rewrite Forall_forall in F. specialize (F t I). rewrite E in F. eapply xseg_lt_irrefl; eauto. Qed.

  Lemma sorted_head_lt (p s : segment C) r : StronglySorted (fun s t => seg_leb s t = true) (p :: s :: r) ->
    xseg_eqb (sx p) (sx s) = false -> Forall (fun t => xseg_lt (sx p) (sx t)) (s :: r).
  Proof.
    intros H E. inversion H as [|? ? H1 H2]; subst. inversion H1 as [|? ? H3 H4]; subst.
    assert (L : xseg_lt (sx p) (sx s)).
    { apply xseg_eqb_neq in E. pose proof (Forall_inv H2) as Z. apply xseg_leb_le in Z. tauto. }
    constructor; auto. eapply Forall_impl; [|exact H4]. intros t Ht. apply xseg_leb_le in Ht.
    destruct Ht as [Ht|Ht]; [eapply xseg_lt_trans; eauto|congruence].
  Qed.

  Lemma merge_from_spec rest : forall prev, StronglySorted (fun s t => seg_leb s t = true) (prev :: rest) ->
    forall e, In e (merge_from prev rest) <-> wc_not_empty (sc e) = true /\ sc e = total (sx e) (prev :: rest).
  Proof.
    induction rest as [|s r IH]; intros p H e.
    - cbn [merge_from total fold_right]. destruct (xseg_eqb (sx p) (sx e)) eqn:E.
      + apply xseg_eqb_eq in E. rewrite wc_add_zero. split.
        * destruct (wc_not_empty (sc p)) eqn:N; intros []; subst; auto. destruct H0.
        * intros [N Q]. rewrite Q in N. rewrite N. left. destruct p, e; simpl in *; congruence.
      + apply xseg_eqb_neq in E. split.
        * destruct (wc_not_empty (sc p)) eqn:N; [intros [Q|[]]; congruence|intros []].
        * intros [N Q]. rewrite Q in N. rewrite wc_zero in N. discriminate.
    - cbn [merge_from]. destruct (xseg_eqb (sx p) (sx s)) eqn:E.
      + apply xseg_eqb_eq in E. rewrite IH; [rewrite total_absorb by auto; reflexivity|].
        inversion H as [|? ? H1 H2]; subst. inversion H1 as [|? ? H3 H4]; subst. inversion H2; subst. constructor; auto.
      + pose proof (sorted_head_lt p s r H E) as F. inversion H as [|? ? H1 H2]; subst.
        assert (K : In e (merge_from s r) <-> wc_not_empty (sc e) = true /\ sx e <> sx p /\ sc e = total (sx e) (p :: s :: r)).
        { rewrite IH by auto. unfold total at 2. cbn [fold_right]. destruct (xseg_eqb (sx p) (sx e)) eqn:Ee.
          - apply xseg_eqb_eq in Ee. split; [|intros (A & B & _); congruence].
            intros [A B]. rewrite total_none in B; [rewrite B in A; rewrite wc_zero in A; discriminate|].
            rewrite <- Ee. apply lt_above. auto.
          - apply xseg_eqb_neq in Ee. split; intros A; intuition auto. }
        assert (T : total (sx p) (p :: s :: r) = sc p).
        { unfold total. cbn [fold_right]. rewrite xseg_eqb_refl. change (wc_add (sc p) (total (sx p) (s :: r)) = sc p).
          rewrite total_none by (apply lt_above; auto). apply wc_add_zero. }
        destruct (wc_not_empty (sc p)) eqn:N; cbn [In]; rewrite K.
        * split.
          -- intros [<-|(A & B & D)]; auto. 
          -- intros [A B]. destruct (xseg_eqb (sx e) (sx p)) eqn:Ee.
             ++ apply xseg_eqb_eq in Ee. left. rewrite Ee, T in B. destruct p, e; simpl in *; congruence.
             ++ right. apply xseg_eqb_neq in Ee. auto.
        * split; [tauto|]. intros [A B]. split; auto. split; auto. intro Ee. rewrite Ee, T in B. congruence.
  Qed.

  Lemma merge_scan_spec rest : forall prev, StronglySorted (fun s t => seg_leb s t = true) (prev :: rest) ->
    Forall (fun s => wc_not_empty (sc s) = true) (prev :: rest) ->
    forall e, In e (merge_scan prev rest) <-> wc_not_empty (sc e) = true /\ sc e = total (sx e) (prev :: rest).
  Proof.
    induction rest as [|s r IH]; intros p H NE e.
    - cbn [merge_scan]. rewrite <- (merge_from_spec [] p H e). cbn [merge_from]. rewrite (Forall_inv NE). reflexivity.
    - cbn [merge_scan]. destruct (xseg_eqb (sx p) (sx s)) eqn:E; [apply merge_from_spec; auto|].
      pose proof (sorted_head_lt p s r H E) as F. inversion H as [|? ? H1 H2]; subst.
      cbn [In]. rewrite (IH s H1 (Forall_inv_tail NE)). rewrite <- (merge_from_spec (s :: r) p H e). cbn [merge_from]. rewrite E, (Forall_inv NE).
      cbn [In]. rewrite merge_from_spec by auto. reflexivity.
  Qed.

  Lemma merge_spec l : StronglySorted (fun s t => seg_leb s t = true) l -> Forall (fun s => wc_not_empty (sc s) = true) l ->
    forall e, In e (merge_if_needed l) <-> wc_not_empty (sc e) = true /\ sc e = total (sx e) l.
  Proof.
    destruct l as [|s r]; intros H NE e; [|apply merge_scan_spec; auto].
    simpl. split; [tauto|]. intros [A B]. rewrite B, wc_zero in A. discriminate.
  Qed.

  (** any sorting algorithm (stable or not) leads to the same merged list *)
  Lemma merge_any_sort (l m : list (segment C)) :
    Permutation l m -> StronglySorted (fun s t => seg_leb s t = true) m ->
    Forall (fun s => wc_not_empty (sc s) = true) l -> merge_if_needed m = sort_merge l.
  Proof.
    intros P S N.
    assert (N' : Forall (fun s : segment C => wc_not_empty (sc s) = true) m) by (eapply Permutation_Forall; eauto).
    apply strict_sorted_ext; [apply merge_sorted; auto|apply sort_merge_sorted|].
    intro e. unfold sort_merge. rewrite merge_spec by auto.
    rewrite merge_spec; [|apply sort_segments_sorted|eapply Permutation_Forall; [apply Permutation_sym, isort_perm|auto]].
    rewrite (total_perm (sx e) m l) by (apply Permutation_sym; auto).
    rewrite (total_perm (sx e) (sort_segments l) l) by apply isort_perm. reflexivity.
  Qed.

  Lemma sort_merge_spec l : Forall (fun s => wc_not_empty (sc s) = true) l ->
    forall e, In e (sort_merge l) <-> wc_not_empty (sc e) = true /\ sc e = total (sx e) l.
  Proof.
    intros N e. unfold sort_merge. rewrite merge_spec; [|apply sort_segments_sorted|eapply Permutation_Forall; [apply Permutation_sym, isort_perm|auto]].
    rewrite (total_perm (sx e) (sort_segments l) l) by apply isort_perm. reflexivity.
  Qed.

  Lemma sort_merge_perm (l m : list (segment C)) :
    Permutation l m -> Forall (fun s => wc_not_empty (sc s) = true) l ->
    sort_merge l = sort_merge m.
  Proof.
    intros HP HN. symmetry. apply merge_any_sort; auto; [|apply sort_segments_sorted].
    eapply Permutation_trans; [exact HP|]. apply Permutation_sym, isort_perm.
  Qed.

  Lemma total_ok x l : Forall (fun s => wc_ok (sc s)) l -> wc_ok (wc_new 0 0 : C) -> wc_ok (total x l).
  Proof.
    intros F Z. induction F as [|s l H F IH]; simpl; auto. destruct (xseg_eqb (sx s) x); auto. apply wc_ok_add; auto.
  Qed.
  Lemma sort_merge_ok l : Forall (fun s => wc_ok (sc s)) l -> Forall (fun s => wc_ok (sc s)) (sort_merge l).
  Proof.
    intro H. assert (H' : Forall (fun s => wc_ok (sc s)) (sort_segments l)).
    { eapply Permutation_Forall; [apply Permutation_sym, isort_perm|exact H]. }
    assert (K : forall rest prev, Forall (fun s => wc_ok (sc s)) (prev :: rest) -> Forall (fun s => wc_ok (sc s)) (merge_from prev rest)).
    { induction rest as [|s r IH]; intros p F; cbn [merge_from]; inversion F as [|? ? F1 F2]; subst.
      - destruct (wc_not_empty _); auto.
      - inversion F2; subst. destruct (xseg_eqb _ _); [apply IH; constructor; auto; simpl; apply wc_ok_add; auto|].
        destruct (wc_not_empty _); auto. }
    unfold sort_merge. destruct (sort_segments l) as [|s r]; auto. cbn [merge_if_needed]. clear H.
    revert s H'. induction r as [|t r IH]; intros s F; cbn [merge_scan]; auto.
    destruct (xseg_eqb _ _); [apply K; auto|]. inversion F; subst. constructor; auto.
  Qed.

  (** a flag that merging combines by "or" *)
  Lemma total_flag (g : C -> bool) : g (wc_new 0 0) = false -> (forall a b, g (wc_add a b) = g a || g b) ->
    forall x l, g (total x l) = existsb (fun s => xseg_eqb (sx s) x && g (sc s)) l.
  Proof.
    intros G0 GA x l. induction l as [|s l IH]; simpl; auto. destruct (xseg_eqb (sx s) x); simpl; auto. rewrite GA, IH. auto.
  Qed.
End Canon.

Lemma append_loop_count {C} {WC : WindingCount C} (d i : C) (P : C -> Prop) it :
  P d -> P i -> forall p0 p1 out f0 f1,
  append_loop p0 p1 it d i = (out, f0, f1) -> Forall (fun s => P (sc s)) out.
Proof.
  intros Pd Pi. induction it as [|p it IH]; intros p0 p1 out f0 f1 E; simpl in E.
  - injection E as <- <- <-. constructor.
  - destruct (is_line_point p0 p1 p); [eapply IH; eauto|].
    destruct (append_loop p1 p it d i) as [[o g0] g1] eqn:E'. injection E as <- <- <-.
    constructor; [unfold with_ab; destruct (pt_ltb _ _); auto|eapply IH; eauto].
Qed.

Lemma append_path_count {C} {WC : WindingCount C} (P : C -> Prop) path t :
  P (fst (wc_with_shape t)) -> P (snd (wc_with_shape t)) ->
  Forall (fun s => P (sc s)) (append_path path t).
Proof.
  intros Pd Pi. destruct path as [|p0 [|p1 it]]; try constructor.
  unfold append_path.
  destruct (append_skip p0 p1 it) as [[e0 e1] rest].
  destruct (wc_with_shape t) as [d i]. simpl in Pd, Pi.
  destruct (append_loop e0 e1 rest d i) as [[out f0] f1] eqn:E2.
  assert (W : forall p r, P (sc (with_ab p r d i)))
    by (intros; unfold with_ab; destruct (pt_ltb _ _); auto).
  apply Forall_app; split; [exact (append_loop_count d i P rest Pd Pi _ _ _ _ _ E2)|].
  unfold append_close. destruct (is_line_point f0 f1 p0), (is_line_point p0 e0 f1).
  - destruct (pt_eqb f0 e0); repeat (apply Forall_nil || (apply Forall_cons; [apply W|])).
  - destruct (pt_eqb f0 p0); simpl; repeat (apply Forall_nil || (apply Forall_cons; [apply W|])).
  - destruct (pt_eqb f1 e0); simpl; repeat (apply Forall_nil || (apply Forall_cons; [apply W|])).
  - repeat (apply Forall_nil || (apply Forall_cons; [apply W|])).
Qed.

Lemma append_path_nonempty path t :
  Forall (fun s : segment cntB => wc_not_empty (sc s) = true) (append_path path t).
Proof. apply (append_path_count (fun c => wc_not_empty c = true)); destruct t; reflexivity. Qed.
