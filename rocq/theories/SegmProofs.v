(** * Proofs about building segments from contours and merging them. *)
From Verif Require Import Base Spec QLib ModelSegm.
Open Scope Z_scope.

(** ** Edge cochains *)

Lemma under_degenerate p r q : px p = px r -> under (XS p r) q = false.
Proof.
  intro H. destruct (under (XS p r) q) eqn:E; auto.
  apply under_iff in E; simpl in E. unfold qx in E. rewrite H in E. lra.
Qed.

Lemma edge_wind_refl q p : edge_wind q (p, p) = 0.
Proof. unfold edge_wind; simpl. rewrite !under_degenerate by auto. reflexivity. Qed.

Lemma under_excl p r q : under (XS p r) q = true -> under (XS r p) q = false.
Proof.
  intro H. destruct (under (XS r p) q) eqn:E; auto.
  apply under_iff in H, E; simpl in *. lra.
Qed.

Lemma edge_wind_anti q p r : edge_wind q (p, r) = - edge_wind q (r, p).
Proof.
  unfold edge_wind; simpl.
  destruct (under (XS p r) q) eqn:E1.
  - rewrite (under_excl _ _ _ E1). reflexivity.
  - destruct (under (XS r p) q); reflexivity.
Qed.

(** Indicator form: below the line and x in the half open range. *)
Lemma edge_wind_line q p r (s : xseg) :
  px (sa s) <> px (sb s) ->
  (qy p == height s (qx p))%Q -> (qy r == height s (qx r))%Q -> px p <> px r ->
  edge_wind q (p, r) =
    if Qltb (height s (fst q)) (snd q)
    then bz (Qle_bool (qx p) (fst q)) - bz (Qle_bool (qx r) (fst q)) else 0.
Proof.
  intros Hs Hp Hr Hn.
  assert (Hs' := qx_neq _ _ Hs). assert (Hn' := qx_neq _ _ Hn).
  assert (Hh : (height (XS p r) (fst q) == height s (fst q))%Q)
    by (apply height_same_line; auto).
  assert (Hh2 : (height (XS r p) (fst q) == height s (fst q))%Q)
    by (apply height_same_line; simpl; auto; intro; apply Hn'; symmetry; auto).
  unfold edge_wind; simpl.
  destruct (under (XS p r) q) eqn:E1.
  - apply under_iff in E1; simpl in E1. destruct E1 as (A & B & D).
    rewrite Hh in D. apply Qltb_lt in D. rewrite D.
    apply Qleb_le in A. apply Qleb_gt in B. rewrite A, B. reflexivity.
  - destruct (under (XS r p) q) eqn:E2.
    + apply under_iff in E2; simpl in E2. destruct E2 as (A & B & D).
      rewrite Hh2 in D. apply Qltb_lt in D. rewrite D.
      apply Qleb_le in A. apply Qleb_gt in B. rewrite A, B. reflexivity.
    + destruct (Qltb (height s (fst q)) (snd q)) eqn:D; auto.
      apply Qltb_lt in D.
      destruct (Qle_bool (qx p) (fst q)) eqn:A, (Qle_bool (qx r) (fst q)) eqn:B; simpl; auto; exfalso.
      * apply Qleb_le in A. apply Qleb_gt in B.
        rewrite (proj2 (under_iff (XS p r) q)) in E1; [discriminate|]; simpl. rewrite Hh. auto.
      * apply Qleb_le in B. apply Qleb_gt in A.
        rewrite (proj2 (under_iff (XS r p) q)) in E2; [discriminate|]; simpl. rewrite Hh2. auto.
Qed.

Lemma edge_wind_vertical q p r : px p = px r -> edge_wind q (p, r) = 0.
Proof. intro H. unfold edge_wind; simpl. rewrite !under_degenerate by auto. reflexivity. Qed.

(** any point collinear with the (non vertical) base line satisfies its height equation *)
Lemma collinear_height p r t : px p <> px r -> cross3 p r t = 0 ->
  (qy t == height (XS p r) (qx t))%Q.
Proof.
  intros Hn Hc.
  destruct (Z.lt_ge_cases (px p) (px r)) as [L|L].
  - apply (online_pt (XS p r)); simpl; auto. unfold qx; apply qz_lt; auto.
  - rewrite <- (height_swap (XS p r)) by (simpl; apply qx_neq; auto). simpl.
    apply (online_pt (XS r p)); simpl; [unfold qx; apply qz_lt; lia|].
    revert Hc. unfold cross3. intro. nia.
Qed.

Lemma edge_wind_collinear q p0 p1 p2 : cross3 p0 p1 p2 = 0 ->
  edge_wind q (p0, p1) + edge_wind q (p1, p2) = edge_wind q (p0, p2).
Proof.
  intro H.
  destruct (Z.eq_dec (px p0) (px p1)) as [E01|N01].
  - destruct (Z.eq_dec (py p0) (py p1)) as [F01|G01].
    + assert (p0 = p1) by (apply pt_ext; auto). subst p1. rewrite edge_wind_refl. lia.
    + assert (px p2 = px p0).
      { unfold cross3 in H. rewrite E01, Z.sub_diag in H.
        assert ((py p1 - py p0) * (px p2 - px p1) = 0) by lia. apply Z.mul_eq_0 in H0. lia. }
      rewrite !edge_wind_vertical by lia. reflexivity.
  - assert (Hp0 : (qy p0 == height (XS p0 p1) (qx p0))%Q) by (rewrite (height_at_a (XS p0 p1)); reflexivity).
    assert (Hp1 : (qy p1 == height (XS p0 p1) (qx p1))%Q)
      by (rewrite (height_at_b (XS p0 p1)) by (simpl; apply qx_neq; auto); reflexivity).
    assert (Hp2 := collinear_height p0 p1 p2 N01 H).
    rewrite (edge_wind_line q p0 p1 (XS p0 p1)) by auto.
    destruct (Z.eq_dec (px p1) (px p2)) as [E12|N12].
    + rewrite (edge_wind_vertical q p1 p2) by auto.
      rewrite (edge_wind_line q p0 p2 (XS p0 p1)) by (auto; lia).
      unfold qx. rewrite E12. lia.
    + rewrite (edge_wind_line q p1 p2 (XS p0 p1)) by auto.
      destruct (Z.eq_dec (px p0) (px p2)) as [E02|N02].
      * rewrite (edge_wind_vertical q p0 p2) by auto. unfold qx. rewrite E02.
        destruct (Qltb _ _); lia.
      * rewrite (edge_wind_line q p0 p2 (XS p0 p1)) by auto.
        destruct (Qltb _ _); lia.
Qed.

Lemma last_cons_default {A} (x : A) l d : last (x :: l) d = last (x :: l) x.
Proof. revert x d; induction l as [|y l IH]; intros; auto. change (last (y :: l) d = last (y :: l) x). rewrite (IH y d), (IH y x); auto. Qed.

Section Build.
  (** a cochain that is additive along collinear points *)
  Variable w : pt -> pt -> Z.
  Hypothesis w_refl : forall p, w p p = 0.
  Hypothesis w_col : forall p0 p1 p2, cross3 p0 p1 p2 = 0 -> w p0 p1 + w p1 p2 = w p0 p2.

  Context {C : Type} {WC : WindingCount C}.
  Variable v : segment C -> Z.     (* value of a stored segment *)
  Variable direct invert : C.
  Variable k : Z.
  Hypothesis v_with_ab : forall p r, v (with_ab p r direct invert) = k * w p r.

  Fixpoint polyline (p : pt) (l : list pt) : Z :=
    match l with [] => 0 | r :: l' => w p r + polyline r l' end.

  Lemma append_skip_sum it : forall p0 p1 e0 e1 rest tail,
    append_skip p0 p1 it = (e0, e1, rest) ->
    w p0 p1 + polyline p1 (it ++ tail) = w p0 e0 + w e0 e1 + polyline e1 (rest ++ tail).
  Proof.
    induction it as [|p it IH]; simpl; intros p0 p1 e0 e1 rest tail E.
    - injection E as <- <- <-. rewrite w_refl. simpl. lia.
    - unfold is_not_line_point, is_line_point in E.
      destruct (cross3 p0 p1 p =? 0) eqn:Hc; simpl in E.
      + rewrite <- (IH _ _ _ _ _ tail E). apply Z.eqb_eq in Hc.
        rewrite <- (w_col p0 p1 p Hc). lia.
      + injection E as <- <- <-. lia.
  Qed.

  Lemma append_loop_sum it : forall p0 p1 out f0 f1 tail,
    append_loop p0 p1 it direct invert = (out, f0, f1) ->
    k * (w p0 p1 + polyline p1 (it ++ tail)) = zsum v out + k * (w f0 f1 + polyline f1 tail).
  Proof.
    induction it as [|p it IH]; simpl; intros p0 p1 out f0 f1 tail E.
    - injection E as <- <- <-. rewrite zsum_nil. lia.
    - unfold is_line_point in E. destruct (cross3 p0 p1 p =? 0) eqn:Hc.
      + rewrite <- (IH _ _ _ _ _ tail E). apply Z.eqb_eq in Hc.
        rewrite <- (w_col p0 p1 p Hc). lia.
      + destruct (append_loop p1 p it direct invert) as [[out' g0] g1] eqn:E'.
        injection E as <- <- <-.
        rewrite zsum_cons, v_with_ab. rewrite <- Z.add_assoc, <- (IH _ _ _ _ _ tail E'). lia.
  Qed.

  Lemma append_close_sum p0 p1 q0 q1 :
    (p1 <> q0 \/ w p0 q0 + w q0 q1 = w p0 q1) ->
    zsum v (append_close p0 p1 q0 q1 direct invert) = k * (w p0 p1 + w p1 q0 + w q0 q1).
  Proof.
    intro Hne. unfold append_close, is_line_point.
    destruct (cross3 p0 p1 q0 =? 0) eqn:E1, (cross3 q0 q1 p1 =? 0) eqn:E2;
      try apply Z.eqb_eq in E1; try apply Z.eqb_eq in E2.
    - rewrite (w_col p0 p1 q0 E1).
      assert (Hq : w p0 q0 + w q0 q1 = w p0 q1).
      { destruct Hne as [Hne|]; auto. apply w_col.
        assert (px p1 <> px q0 \/ py p1 <> py q0).
        { destruct (Z.eq_dec (px p1) (px q0)), (Z.eq_dec (py p1) (py q0)); auto.
          exfalso; apply Hne, pt_ext; auto. }
        unfold cross3 in *.
        assert (A : (px p1 - px q0) * (py p0 - py q0) = (py p1 - py q0) * (px p0 - px q0)) by lia.
        assert (B : (px p1 - px q0) * (py q1 - py q0) = (py p1 - py q0) * (px q1 - px q0)) by lia.
        assert (D : (px p0 - px q0) * (py q1 - py q0) = (py p0 - py q0) * (px q1 - px q0)).
        { assert (N : px p1 - px q0 <> 0 \/ py p1 - py q0 <> 0) by lia. clear - A B N.
          revert A B N. generalize (px p1 - px q0) (py p1 - py q0) (px p0 - px q0) (py p0 - py q0)
            (px q1 - px q0) (py q1 - py q0). intros dx dy a b c d A B [N|N].
          - apply (Z.mul_reg_l _ _ dx N).
            replace (dx * (a * d)) with (a * (dx * d)) by ring. rewrite B.
            replace (a * (dy * c)) with ((dy * a) * c) by ring. rewrite <- A. ring.
          - apply (Z.mul_reg_l _ _ dy N).
            replace (dy * (a * d)) with ((dy * a) * d) by ring. rewrite <- A.
            replace (dx * b * d) with (b * (dx * d)) by ring. rewrite B. ring. }
        lia. }
      destruct (pt_eqb p0 q1) eqn:E.
      + apply pt_eqb_eq in E. subst q1. rewrite zsum_nil. rewrite Hq, w_refl. lia.
      + rewrite zsum_cons, zsum_nil, v_with_ab. rewrite <- Hq. lia.
    - rewrite zsum_app, zsum_cons, zsum_nil, v_with_ab.
      rewrite (w_col p0 p1 q0 E1).
      destruct (pt_eqb p0 q0) eqn:E.
      + apply pt_eqb_eq in E. subst q0. rewrite zsum_nil, w_refl. lia.
      + rewrite zsum_cons, zsum_nil, v_with_ab. lia.
    - assert (E3 : cross3 p1 q0 q1 = 0) by (revert E2; unfold cross3; nia).
      rewrite zsum_cons, v_with_ab.
      pose proof (w_col p1 q0 q1 E3) as E4.
      destruct (pt_eqb p1 q1) eqn:E.
      + apply pt_eqb_eq in E. subst q1. rewrite zsum_nil. rewrite w_refl in E4. nia.
      + rewrite zsum_cons, zsum_nil, v_with_ab. nia.
    - rewrite !zsum_cons, zsum_nil, !v_with_ab. lia.
  Qed.

  Lemma append_skip_last it : forall p0 p1 e0 e1 rest,
    append_skip p0 p1 it = (e0, e1, rest) -> last (p1 :: it) p1 = last (e1 :: rest) e1.
  Proof.
    induction it as [|p it IH]; intros p0 p1 e0 e1 rest E; simpl in E.
    - injection E as <- <- <-. reflexivity.
    - destruct (is_not_line_point p0 p1 p).
      + injection E as <- <- <-. apply (last_cons_default p it p1).
      + rewrite <- (IH _ _ _ _ _ E). apply (last_cons_default p it p1).
  Qed.

  Lemma append_loop_last it : forall p0 p1 out f0 f1,
    append_loop p0 p1 it direct invert = (out, f0, f1) -> f1 = last (p1 :: it) p1.
  Proof.
    induction it as [|p it IH]; intros p0 p1 out f0 f1 E; simpl in E.
    - injection E as <- <- <-. reflexivity.
    - assert (L : last (p1 :: p :: it) p1 = last (p :: it) p).
      { apply (last_cons_default p it p1). }
      rewrite L.
      destruct (is_line_point p0 p1 p); [eapply IH; eauto|].
      destruct (append_loop p1 p it direct invert) as [[out' g0] g1] eqn:E'.
      injection E as <- <- <-. eapply IH; eauto.
  Qed.
End Build.


Lemma polyline_edges w p l r :
  polyline w p (l ++ [r]) = zsum (fun e => w (fst e) (snd e)) (combine (p :: l) (l ++ [r])).
Proof.
  revert p. induction l as [|a l IH]; intro p; simpl.
  - rewrite zsum_cons, zsum_nil. reflexivity.
  - rewrite zsum_cons. simpl. rewrite IH. reflexivity.
Qed.

Section BuildTop.
  Variable w : pt -> pt -> Z.
  Hypothesis w_refl : forall p, w p p = 0.
  Hypothesis w_col : forall p0 p1 p2, cross3 p0 p1 p2 = 0 -> w p0 p1 + w p1 p2 = w p0 p2.
  Context {C : Type} {WC : WindingCount C}.
  Variable v : segment C -> Z.
  Variable t : ShapeType.
  Variable k : Z.
  Hypothesis v_with_ab : forall p r, v (with_ab p r (fst (wc_with_shape t)) (snd (wc_with_shape t))) = k * w p r.

  Lemma append_path_sum path :
    (last path (Pt 0 0) <> hd (Pt 0 0) path \/ (length path < 2)%nat
     \/ (forall p0 p1 p2, w p0 p1 + w p1 p2 = w p0 p2)) ->
    zsum v (append_path path t) = k * zsum (fun e => w (fst e) (snd e)) (edges path).
  Proof.
    intro Hne. destruct path as [|p0 [|p1 it]].
    - simpl. rewrite !zsum_nil. lia.
    - simpl. rewrite zsum_cons, !zsum_nil. simpl. rewrite w_refl. lia.
    - unfold append_path, edges.
      destruct (append_skip p0 p1 it) as [[e0 e1] rest] eqn:E1.
      destruct (wc_with_shape t) as [direct invert] eqn:Ewc. simpl in v_with_ab.
      destruct (append_loop e0 e1 rest direct invert) as [[out f0] f1] eqn:E2.
      rewrite <- (polyline_edges w p0 (p1 :: it) p0). simpl polyline.
      rewrite (append_skip_sum w w_refl w_col _ _ _ _ _ _ [p0] E1).
      rewrite zsum_app.
      pose proof (append_loop_sum w w_col v direct invert k v_with_ab _ _ _ _ _ _ [p0] E2) as H2.
      rewrite (append_close_sum w w_refl w_col v direct invert k v_with_ab).
      2:{ destruct Hne as [Hne|[Hne|Hne]].
          - left. intro EQ. apply Hne. simpl hd.
            transitivity f1; auto.
            assert (F : f1 = last (e1 :: rest) e1) by (eapply append_loop_last; eauto).
            rewrite F. erewrite <- append_skip_last by eauto.
            apply (last_cons_default p1 it).
          - simpl in Hne. lia.
          - right. apply Hne. }
      simpl polyline in H2. nia.
  Qed.
End BuildTop.

(** ** C03: winding number of an added contour *)

Lemma wind_chain_of {C} (f : C -> Z) l q :
  wind (chain_of f l) q = zsum (fun s => if under (sx s) q then f (sc s) else 0) l.
Proof. unfold wind, chain_of. rewrite zsum_map. reflexivity. Qed.

Lemma boundary_chain_of {C} (f : C -> Z) l v :
  boundary (chain_of f l) v =
  zsum (fun s => f (sc s) * (bz (pt_eqb (sb (sx s)) v) - bz (pt_eqb (sa (sx s)) v))) l.
Proof. unfold boundary, chain_of. rewrite zsum_map. reflexivity. Qed.

Definition shape_coeff (t : ShapeType) (target : ShapeType) : Z :=
  match t, target with Subject, Subject | Clip, Clip => 1 | _, _ => 0 end.

Lemma ltb_xor_under p r q : pt_ltb p r = true -> under (XS r p) q = false.
Proof.
  intro H. apply pt_ltb_lt in H. destruct (under (XS r p) q) eqn:E; auto.
  apply under_iff in E; simpl in E. destruct E as (A & B & _).
  assert ((qx r < qx p)%Q) by lra. pose proof (proj1 (qz_lt _ _) H0).
  exfalso. clear A B. unfold pt_lt in H. lia.
Qed.

Lemma nltb_under p r q : pt_ltb p r = false -> under (XS p r) q = false.
Proof.
  intro H. apply pt_ltb_ge in H. destruct (under (XS p r) q) eqn:E; auto.
  apply under_iff in E; simpl in E. destruct E as (A & B & _).
  assert ((qx p < qx r)%Q) by lra. pose proof (proj1 (qz_lt _ _) H0).
  exfalso. clear A B. unfold pt_lt in H. lia.
Qed.

Lemma with_ab_wind {C} {WC : WindingCount C} (f : C -> Z) (d i : C) k q p r :
  f d = k -> f i = - k ->
  (if under (sx (with_ab p r d i)) q then f (sc (with_ab p r d i)) else 0) = k * edge_wind q (p, r).
Proof.
  intros Hd Hi. unfold with_ab, edge_wind; simpl.
  destruct (pt_ltb p r) eqn:E; simpl.
  - rewrite (ltb_xor_under _ _ _ E). destruct (under (XS p r) q); lia.
  - rewrite (nltb_under _ _ _ E). destruct (under (XS r p) q); lia.
Qed.

Definition bd_edge (v : pt) (p r : pt) : Z := bz (pt_eqb r v) - bz (pt_eqb p v).

Lemma with_ab_bd {C} {WC : WindingCount C} (f : C -> Z) (d i : C) k v p r :
  f d = k -> f i = - k ->
  f (sc (with_ab p r d i)) * (bz (pt_eqb (sb (sx (with_ab p r d i))) v) - bz (pt_eqb (sa (sx (with_ab p r d i))) v))
  = k * bd_edge v p r.
Proof.
  intros Hd Hi. unfold with_ab, bd_edge. destruct (pt_ltb p r); simpl; lia.
Qed.

Lemma append_path_wind {C} {WC : WindingCount C} (f : C -> Z) t k path q :
  f (fst (wc_with_shape t)) = k -> f (snd (wc_with_shape t)) = - k ->
  (last path (Pt 0 0) <> hd (Pt 0 0) path \/ (length path < 2)%nat) ->
  wind (chain_of f (append_path path t)) q = k * contour_wind path q.
Proof.
  intros Hd Hi Hne. rewrite wind_chain_of.
  rewrite (append_path_sum (fun p r => edge_wind q (p, r)) (edge_wind_refl q)
             (edge_wind_collinear q)
             (fun s => if under (sx s) q then f (sc s) else 0) t k).
  - unfold contour_wind. f_equal; try (apply zsum_ext; intros [a b]; reflexivity).
  - intros p r. apply with_ab_wind; auto.
  - tauto.
Qed.

Lemma append_path_boundary {C} {WC : WindingCount C} (f : C -> Z) t k path v :
  f (fst (wc_with_shape t)) = k -> f (snd (wc_with_shape t)) = - k ->
  boundary (chain_of f (append_path path t)) v = 0.
Proof.
  intros Hd Hi. rewrite boundary_chain_of.
  assert (A : forall p0 p1 p2, bd_edge v p0 p1 + bd_edge v p1 p2 = bd_edge v p0 p2)
    by (intros; unfold bd_edge; lia).
  rewrite (append_path_sum (bd_edge v)
             (fun p => Z.sub_diag _) (fun p0 p1 p2 _ => A p0 p1 p2)
             (fun s => f (sc s) * (bz (pt_eqb (sb (sx s)) v) - bz (pt_eqb (sa (sx s)) v))) t k).
  - assert (B : zsum (fun e => bd_edge v (fst e) (snd e)) (edges path) = 0).
    { destruct path as [|p l]; [reflexivity|]. unfold edges.
      rewrite <- (polyline_edges (bd_edge v) p l p).
      assert (G : forall l a b, polyline (bd_edge v) a (l ++ [b]) = bd_edge v a b).
      { clear -A. induction l as [|x l IH]; intros; simpl.
        - lia.
        - rewrite IH. apply A. }
      rewrite G. unfold bd_edge. lia. }
    rewrite B. lia.
  - intros. apply with_ab_bd; auto.
  - auto.
Qed.

(** non degenerate *)
Lemma with_ab_wf {C} {WC : WindingCount C} (d i : C) p r : p <> r -> wf_xseg (sx (with_ab p r d i)).
Proof.
  intro N. unfold with_ab, wf_xseg. destruct (pt_ltb p r) eqn:E; simpl.
  - apply pt_ltb_lt; auto.
  - apply pt_ltb_ge in E. destruct (pt_total p r) as [[H|H]|H]; auto; contradiction.
Qed.

Lemma cross3_neq01 p r t : cross3 p r t <> 0 -> p <> r.
Proof. intros H ->. apply H. unfold cross3. lia. Qed.
Lemma cross3_neq12 p r t : cross3 p r t <> 0 -> r <> t.
Proof. intros H ->. apply H. unfold cross3. lia. Qed.

Lemma append_loop_wf {C} {WC : WindingCount C} (d i : C) it : forall p0 p1 out f0 f1,
  append_loop p0 p1 it d i = (out, f0, f1) -> Forall (fun s => wf_xseg (sx s)) out.
Proof.
  induction it as [|p it IH]; intros p0 p1 out f0 f1 E; simpl in E.
  - injection E as <- <- <-. constructor.
  - unfold is_line_point in E. destruct (cross3 p0 p1 p =? 0) eqn:Hc.
    + eapply IH; eauto.
    + destruct (append_loop p1 p it d i) as [[out' g0] g1] eqn:E'.
      injection E as <- <- <-. constructor.
      * apply with_ab_wf. apply Z.eqb_neq in Hc. eapply cross3_neq01; eauto.
      * eapply IH; eauto.
Qed.

Lemma append_path_wf {C} {WC : WindingCount C} path t :
  Forall (fun s => wf_xseg (sx s)) (@append_path C WC path t).
Proof.
  destruct path as [|p0 [|p1 it]]; try constructor.
  unfold append_path.
  destruct (append_skip p0 p1 it) as [[e0 e1] rest] eqn:E1.
  destruct (wc_with_shape t) as [d i].
  destruct (append_loop e0 e1 rest d i) as [[out f0] f1] eqn:E2.
  apply Forall_app; split; [eapply append_loop_wf; eauto|].
  unfold append_close, is_line_point.
  destruct (cross3 f0 f1 p0 =? 0) eqn:H1, (cross3 p0 e0 f1 =? 0) eqn:H2;
    try apply Z.eqb_neq in H1; try apply Z.eqb_neq in H2.
  - destruct (pt_eqb f0 e0) eqn:E; constructor; auto.
    apply with_ab_wf. apply pt_eqb_neq; auto.
  - apply Forall_app; split.
    + destruct (pt_eqb f0 p0) eqn:E; constructor; auto. apply with_ab_wf, pt_eqb_neq; auto.
    + constructor; auto. apply with_ab_wf. eapply cross3_neq01; eauto.
  - constructor; [apply with_ab_wf; eapply cross3_neq01; eauto|].
    destruct (pt_eqb f1 e0) eqn:E; constructor; auto. apply with_ab_wf, pt_eqb_neq; auto.
  - apply Forall_cons; [|apply Forall_cons; [|apply Forall_cons; [|apply Forall_nil]]]; apply with_ab_wf.
    + eapply cross3_neq01; eauto.
    + eapply cross3_neq12; eauto.
    + eapply cross3_neq01; eauto.
Qed.
