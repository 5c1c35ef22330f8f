(** * A contour may be written down from any of its points on, and with extra points on its edges. *)
From Verif Require Import Base Spec QLib ModelSegm SegmProofs.
From Coq Require Import Permutation.
Open Scope Z_scope.

(** ** Specification *)
(** [x] is a point of the line through [a] and [b], strictly between them (on a line the lexicographic order runs along the line) *)
Definition strictly_between (a b x : pt) : Prop := cross3 a b x = 0 /\ (pt_lt a x /\ pt_lt x b \/ pt_lt b x /\ pt_lt x a).
(** no three neighbours on a line *)
Fixpoint turning (l : list pt) : Prop := match l with a :: ((b :: c :: _) as r) => cross3 a b c <> 0 /\ turning r | _ => True end.
Definition sharp (c : list pt) : Prop := match c with p0 :: p1 :: p2 :: _ => turning (c ++ [p0; p1]) | _ => False end.
(** the closed contour with these corners, written down from any point on, with any extra points on its edges *)
Inductive draws (corners : list pt) : list pt -> Prop :=
| D_corners : sharp corners -> draws corners corners
| D_start p l : draws corners (p :: l) -> draws corners (l ++ [p])
| D_point a b x l : draws corners (a :: b :: l) -> strictly_between a b x -> draws corners (a :: x :: b :: l).

(** ** Legs: a corner and the extra points up to the next corner *)
Notation leg := (pt * list pt)%type (only parsing).
Definition flat (L : list leg) : list pt := flat_map (fun l => fst l :: snd l) L.
Definition nxt (L : list leg) (z1 z2 : pt) : pt * pt := match L with [] => (z1, z2) | [x] => (fst x, z1) | x :: y :: _ => (fst x, fst y) end.
Fixpoint ok (L : list leg) (z1 z2 : pt) : Prop :=
  match L with
  | [] => True
  | (a, xs) :: r => cross3 a (fst (nxt r z1 z2)) (snd (nxt r z1 z2)) <> 0 /\ Forall (strictly_between a (fst (nxt r z1 z2))) xs /\ ok r z1 z2
  end.
Definition cyc (L : list leg) : Prop := match L with l0 :: l1 :: l2 :: _ => ok L (fst l0) (fst l1) | _ => False end.

Lemma between_on a b x : strictly_between a b x -> cross3 a b x = 0 /\ x <> a /\ x <> b.
Proof. intros [E [[L M]|[L M]]]; split; auto; split; intros ->; eapply pt_lt_irrefl; eauto. Qed.
(** three points of the line through two points *)
Lemma line3 a b x y z : a <> b -> cross3 a b x = 0 -> cross3 a b y = 0 -> cross3 a b z = 0 -> cross3 x y z = 0.
Proof.
  intros N X Y W. unfold cross3 in *. destruct a as [a1 a2], b as [b1 b2], x as [x1 x2], y as [y1 y2], z as [z1 z2]. cbn [px py] in *.
  assert (P : (b1 - a1) * (y2 - x2) = (b2 - a2) * (y1 - x1)) by lia.
  assert (Q : (b1 - a1) * (z2 - x2) = (b2 - a2) * (z1 - x1)) by lia.
  assert (D : b1 - a1 <> 0 \/ b2 - a2 <> 0) by (destruct (Z.eq_dec b1 a1); [right; intro; apply N; f_equal; lia|left; lia]).
  enough (E : (y1 - x1) * (z2 - x2) - (y2 - x2) * (z1 - x1) = 0) by lia.
  destruct D as [D|D]; apply (Z.mul_cancel_l _ _ _ D).
  - transitivity ((y1 - x1) * ((b1 - a1) * (z2 - x2)) - ((b1 - a1) * (y2 - x2)) * (z1 - x1)); [ring|]. rewrite P, Q. ring.
  - transitivity ((z2 - x2) * ((b2 - a2) * (y1 - x1)) - (y2 - x2) * ((b2 - a2) * (z1 - x1))); [ring|]. rewrite <- P, <- Q. ring.
Qed.
(** if the line turns at [b], it turns for every other point of either line *)
Lemma turn_on a b c x : cross3 a b c <> 0 -> cross3 b c x = 0 -> x <> b -> cross3 a b x <> 0.
Proof.
  intros N X Nx E. apply N. apply (line3 b x); auto; unfold cross3 in *; lia.
Qed.
Lemma turn_from a b c x : cross3 a b c <> 0 -> cross3 a b x = 0 -> x <> b -> cross3 x b c <> 0.
Proof.
  intros N X Nx E. apply N. apply (line3 b x); auto; unfold cross3 in *; lia.
Qed.

Fixpoint run (a : pt) (L : list leg) : list (pt * pt) * pt * pt :=
  match L with
  | [] => ([], a, a)
  | (b, ys) :: r =>
      match r with
      | [] => match ys with [] => ([], a, b) | _ => ([(a, b)], b, last ys b) end
      | _ => let '(o, f0, f1) := run b r in ((a, b) :: o, f0, f1)
      end
  end.

Lemma cross_ne a b c : cross3 a b c <> 0 -> a <> b /\ b <> c.
Proof. intro N. split; intros ->; apply N; unfold cross3; ring. Qed.
Lemma line_point a b c : cross3 a b c = 0 -> is_line_point a b c = true.
Proof. intro E. unfold is_line_point. rewrite E. auto. Qed.
Lemma line_not a b c : cross3 a b c <> 0 -> is_line_point a b c = false.
Proof. intro E. unfold is_line_point. apply Z.eqb_neq. auto. Qed.
Lemma cross_a a b : cross3 a b a = 0. Proof. unfold cross3; ring. Qed.
Lemma cross_b a b : cross3 a b b = 0. Proof. unfold cross3; ring. Qed.

Section Append.
  Context {C : Type} {WC : WindingCount C}.
  Variables d i : C.
  Notation seg e := (with_ab (fst e) (snd e) d i).
  Notation on a b x := (cross3 a b x = 0).

  Lemma loop_line a b : a <> b -> forall xs x it, on a b x -> Forall (fun x => on a b x) xs ->
    append_loop a x (xs ++ it) d i = append_loop a (last xs x) it d i.
  Proof.
    intros N. induction xs as [|y xs IH]; intros x it X F; auto. inversion F as [|? ? Y F']; subst.
    cbn [app append_loop]. rewrite line_point by (apply (line3 a b); auto using cross_a). rewrite IH by auto. f_equal.
    destruct xs; auto. cbn [last]. apply last_indep || (clear; revert p; induction xs as [|z xs IH]; intro p; auto; cbn [last]; apply IH).
  Qed.
  Lemma last_default {X} (l : list X) x y : l <> [] -> last l x = last l y.
  Proof. induction l as [|a [|b l] IH]; intro N; auto; [congruence|]. cbn [last] in *. apply IH. discriminate. Qed.
  Lemma between_all a b xs : Forall (strictly_between a b) xs -> Forall (fun x => on a b x) xs.
  Proof. apply Forall_impl. intros x B. apply between_on in B. tauto. Qed.
  Lemma flat_cons a xs L : flat ((a, xs) :: L) = a :: xs ++ flat L. Proof. reflexivity. Qed.

  (** the next point after a corner [b], wherever the next leg puts it *)
  Lemma next_turn a b L z1 z2 ys p it : cross3 a b (fst (nxt L z1 z2)) <> 0 -> Forall (strictly_between b (fst (nxt L z1 z2))) ys ->
    p :: it = ys ++ flat L -> cross3 a b p <> 0 /\ p <> b.
  Proof.
    intros T F E. destruct ys as [|y ys].
    - destruct L as [|[c zs] L]; [discriminate|]. assert (N : fst (nxt ((c, zs) :: L) z1 z2) = c) by (destruct L; auto).
      rewrite N in T. cbn [app] in E. rewrite flat_cons in E. injection E as -> _. split; auto. intros ->. apply T. apply cross_b.
    - injection E as -> _. inversion F as [|? ? B _]; subst. apply between_on in B as (B & N & _). split; auto. eapply turn_on; eauto.
  Qed.

  Lemma loop_legs : forall L a xs z1 z2 x0 it, L <> [] -> ok ((a, xs) :: L) z1 z2 -> x0 :: it = xs ++ flat L ->
    append_loop a x0 it d i = let '(o, f0, f1) := run a L in (map (fun e => seg e) o, f0, f1).
  Proof.
    induction L as [|[b ys] L IH]; intros a xs z1 z2 x0 it NE O E; [congruence|]. clear NE.
    cbn [ok] in O. destruct O as (T & F & O).
    assert (Nb : fst (nxt ((b, ys) :: L) z1 z2) = b) by (destruct L; auto). rewrite Nb in *.
    assert (Nc : snd (nxt ((b, ys) :: L) z1 z2) = fst (nxt L z1 z2)) by (destruct L as [|? [|? ?]]; auto). rewrite Nc in *.
    destruct (cross_ne _ _ _ T) as [Nab _]. rewrite flat_cons in E.
    assert (S1 : append_loop a x0 it d i = append_loop a b (ys ++ flat L) d i).
    { destruct xs as [|x xs]; [injection E as -> ->; auto|]. cbn [app] in E. injection E as -> ->. apply between_all in F. inversion F as [|? ? X F']; subst.
      replace (xs ++ b :: ys ++ flat L) with ((xs ++ [b]) ++ ys ++ flat L) by (rewrite <- app_assoc; auto).
      rewrite (loop_line a b Nab) by (auto; apply Forall_app; split; auto; constructor; auto using cross_b).
      rewrite last_last. auto. }
    rewrite S1. clear S1 E. cbn [ok] in O. destruct O as (Tb & Fb & O).
    destruct (ys ++ flat L) as [|p q] eqn:Ep.
    { apply app_eq_nil in Ep as [-> Ef]. destruct L as [|[c zs] L]; [|discriminate]. reflexivity. }
    destruct (next_turn a b L z1 z2 ys p q) as [Tp Np]; auto. cbn [append_loop]. rewrite (line_not _ _ _ Tp).
    destruct L as [|l L].
    - cbn [flat flat_map] in Ep. rewrite app_nil_r in Ep. subst ys. cbn [run map]. apply between_all in Fb. inversion Fb as [|? ? X F']; subst.
      destruct (cross_ne _ _ _ T) as [_ Nbz]. rewrite <- (app_nil_r q). rewrite (loop_line b (fst (nxt [] z1 z2)) Nbz) by auto. cbn [append_loop].
      rewrite app_nil_r. assert (X1 : last q p = last (p :: q) b) by (destruct q; auto; change (last (p0 :: q) p = last (p0 :: q) b); apply last_default; discriminate). rewrite X1. reflexivity.
    - rewrite (IH b ys z1 z2 p q); [|discriminate| |auto].
      + change (run a ((b, ys) :: l :: L)) with (let '(o, f0, f1) := run b (l :: L) in ((a, b) :: o, f0, f1)). destruct (run b (l :: L)) as [[o f0] f1]. reflexivity.
      + cbn [ok]. auto.
  Qed.

  Lemma skip_line a b q0 : a <> b -> on a b q0 -> forall xs x it, on a b x -> Forall (fun x => on a b x) xs ->
    append_skip q0 x (xs ++ it) = append_skip q0 (last xs x) it.
  Proof.
    intros N Q. induction xs as [|y xs IH]; intros x it X F; auto. inversion F as [|? ? Y F']; subst.
    cbn [app append_skip]. unfold is_not_line_point. rewrite line_point by (apply (line3 a b); auto). cbn [negb]. rewrite IH by auto. f_equal.
    destruct xs; auto. change (last (p :: xs) y = last (p :: xs) x). apply last_default. discriminate.
  Qed.

  Fixpoint pairs (p : pt) (l : list pt) : list (pt * pt) := match l with [] => [] | q :: r => (p, q) :: pairs q r end.
  Lemma pairs_app l : forall p q k, pairs p (l ++ q :: k) = pairs p (l ++ [q]) ++ pairs q k.
  Proof. induction l as [|x l IH]; intros p q k; auto. cbn [app pairs]. rewrite IH. reflexivity. Qed.
  Lemma edges_pairs p l : edges (p :: l) = pairs p (l ++ [p]).
  Proof.
    unfold edges. assert (E : forall z p, combine (p :: l) (l ++ [z]) = pairs p (l ++ [z])); [|apply E]. intro z. induction l as [|q l IH]; intro p'; [reflexivity|]. change (combine (p' :: q :: l) ((q :: l) ++ [z])) with ((p', q) :: combine (q :: l) (l ++ [z])).
    rewrite IH. reflexivity.
  Qed.

  Lemma ok_nxt L : forall a xs ys z1 z2, ok (L ++ [(a, xs)]) z1 z2 -> Forall (strictly_between a z1) ys -> ok (L ++ [(a, ys)]) z1 z2.
  Proof.
    induction L as [|[b zs] L IH]; intros a xs ys z1 z2 O F; cbn [app ok] in *; [cbn [nxt fst snd] in *; tauto|].
    assert (E : nxt (L ++ [(a, ys)]) z1 z2 = nxt (L ++ [(a, xs)]) z1 z2) by (destruct L as [|? [|? ?]]; auto). rewrite E.
    destruct O as (T & F1 & O). split; auto. split; auto. eapply IH; eauto.
  Qed.
  Lemma ok_last L : forall a xs z1 z2, ok (L ++ [(a, xs)]) z1 z2 -> cross3 a z1 z2 <> 0 /\ Forall (strictly_between a z1) xs.
  Proof. induction L as [|[b zs] L IH]; intros a xs z1 z2 O; cbn [app ok] in O; [cbn [nxt fst snd] in O; tauto|]. apply IH. tauto. Qed.

  Lemma run_end L : forall c xc a ys z1 z2, ok ((c, xc) :: L ++ [(a, ys)]) z1 z2 -> exists o y, pairs c (map fst L ++ [a]) = o ++ [(y, a)] /\ cross3 y a z1 <> 0 /\
    run c (L ++ [(a, ys)]) = match ys with [] => (o, y, a) | _ => (o ++ [(y, a)], a, last ys a) end.
  Proof.
    induction L as [|[b zs] L IH]; intros c xc a ys z1 z2 O.
    - exists [], c. split; auto. cbn [app ok nxt fst snd] in O. split; [tauto|]. cbn [app run]. destruct ys; auto.
    - cbn [app] in *. cbn [ok] in O. destruct O as (_ & _ & O). destruct (IH b zs a ys z1 z2 O) as (o & y & P & T & R).
      exists ((c, b) :: o), y. cbn [map fst app pairs]. rewrite P. split; auto. split; auto.
      assert (E : run c ((b, zs) :: L ++ [(a, ys)]) = let '(o, f0, f1) := run b (L ++ [(a, ys)]) in ((c, b) :: o, f0, f1)) by (destruct L; reflexivity).
      rewrite E, R. destruct ys; reflexivity.
  Qed.

  Theorem append_legs L a ys1 ys2 t : cyc (L ++ [(a, ys1 ++ ys2)]) -> wc_with_shape t = (d, i) ->
    Permutation (append_path (ys2 ++ flat (L ++ [(a, ys1)])) t) (map (fun e => seg e) (edges (map fst (L ++ [(a, ys1)])))).
  Proof.
    intros Cy Sh. destruct L as [|[b xb] [|[c xc] L]]; [destruct Cy|destruct Cy|].
    assert (O : ok ((b, xb) :: (c, xc) :: L ++ [(a, ys1 ++ ys2)]) b c).
    { cbn [app] in Cy. destruct L; exact Cy. }
    clear Cy. destruct (ok_last ((b, xb) :: (c, xc) :: L) a (ys1 ++ ys2) b c O) as [Ta Fa]. apply Forall_app in Fa as [Fa1 Fa2].
    assert (O1 : ok ((b, xb) :: (c, xc) :: L ++ [(a, ys1)]) b c) by (apply (ok_nxt ((b, xb) :: (c, xc) :: L) a (ys1 ++ ys2)); auto).
    destruct (cross_ne _ _ _ Ta) as [Nab Nbc].
    pose proof O1 as O2. cbn [ok] in O2. destruct O2 as (Tb & Fb & Tc & Fc & _).
    assert (Ec : fst (nxt ((c, xc) :: L ++ [(a, ys1)]) b c) = c) by (destruct L; reflexivity). rewrite Ec in *.
    assert (Ed : snd (nxt ((c, xc) :: L ++ [(a, ys1)]) b c) = fst (nxt (L ++ [(a, ys1)]) b c)) by (destruct L as [|? [|? ?]]; reflexivity). rewrite Ed in *.
    cbn [map fst app]. rewrite map_app. cbn [map fst]. rewrite edges_pairs. cbn [app pairs].
    destruct ys2 as [|q0 ys2].
    - (* the contour starts in the corner [b] *)
      cbn [app]. rewrite flat_cons.
      assert (S1 : exists p1 it, xb ++ flat ((c, xc) :: L ++ [(a, ys1)]) = p1 :: it /\ append_skip b p1 it = append_skip b c (xc ++ flat (L ++ [(a, ys1)]))).
      { rewrite flat_cons. destruct xb as [|x xb]; [eexists _, _; split; reflexivity|]. exists x, (xb ++ c :: xc ++ flat (L ++ [(a, ys1)])). split; [reflexivity|].
        apply between_all in Fb. inversion Fb as [|? ? X F']; subst.
        replace (xb ++ c :: xc ++ flat (L ++ [(a, ys1)])) with ((xb ++ [c]) ++ xc ++ flat (L ++ [(a, ys1)])) by (rewrite <- app_assoc; auto).
        rewrite (skip_line b c b Nbc) by (auto using cross_a; apply Forall_app; split; auto; constructor; auto using cross_b). rewrite last_last. reflexivity. }
      destruct S1 as (p1 & it & E1 & S1). unfold append_path. rewrite E1, S1, Sh. clear E1 S1.
      destruct (xc ++ flat (L ++ [(a, ys1)])) as [|p q] eqn:Ep.
      { exfalso. apply app_eq_nil in Ep as [_ Ep]. unfold flat in Ep. rewrite flat_map_app in Ep. apply app_eq_nil in Ep as [_ Ep]. discriminate. }
      destruct (next_turn b c (L ++ [(a, ys1)]) b c xc p q) as [Tp Np]; auto.
      cbn [append_skip]. unfold is_not_line_point. rewrite (line_not _ _ _ Tp). cbn [negb].
      assert (Oc : ok ((c, xc) :: L ++ [(a, ys1)]) b c) by (cbn [ok] in O1; cbn [ok]; tauto).
      rewrite (loop_legs (L ++ [(a, ys1)]) c xc b c p q) by (auto; destruct L; discriminate).
      destruct (run_end L c xc a ys1 b c Oc) as (o & y & P & Ty & R). rewrite R.
      replace ((map fst L ++ [a]) ++ [b]) with (map fst L ++ a :: [b]) by (rewrite <- app_assoc; auto). rewrite pairs_app, P. cbn [pairs].
      assert (Tl : forall x, cross3 a b x = 0 -> x <> b -> is_line_point b c x = false).
      { intros x X N. apply line_not. intro E. apply (turn_from a b c x Ta X N). unfold cross3 in *; lia. }
      destruct ys1 as [|y1 ys1].
      + unfold append_close. rewrite (line_not _ _ _ Ty), (Tl a) by (auto using cross_a). rewrite <- map_app || idtac.
        rewrite map_cons, !map_app. cbn [map fst snd app]. rewrite <- app_assoc. cbn [app].
        apply Permutation_sym. eapply Permutation_trans; [|apply Permutation_app_comm]. cbn [app].
        apply Permutation_trans with ((seg (b, c)) :: map (fun e => seg e) o ++ [seg (y, a); seg (a, b)]); [reflexivity|].
        cbn [fst snd]. eapply Permutation_trans; [apply Permutation_cons_append|]. rewrite <- app_assoc. cbn [app].
        eapply Permutation_trans; [apply Permutation_app_comm|]. reflexivity.
      + set (l := last (y1 :: ys1) a) in *. assert (Il : In l (y1 :: ys1)).
        { unfold l. clear. revert y1. induction ys1 as [|z ys IH]; intro y1; [left; auto|]. right. apply IH. }
        rewrite Forall_forall in Fa1. specialize (Fa1 l Il). apply between_on in Fa1 as (Xl & Nl & Ml).
        unfold append_close. rewrite (line_point a l b) by (apply (line3 a b); auto using cross_a, cross_b). rewrite (Tl l) by auto.
        destruct (pt_eqb a b) eqn:Eab; [apply pt_eqb_eq in Eab; contradiction|].
        rewrite map_cons, !map_app. cbn [map fst snd app]. apply Permutation_sym. eapply Permutation_trans; [apply Permutation_cons_append|]. rewrite <- !app_assoc. reflexivity.
    - (* the contour starts between [a] and [b] *)
      pose proof (between_all _ _ _ Fa2) as On2. inversion On2 as [|? ? Xq Fq]; subst. inversion Fa2 as [|? ? Bq _]; subst. apply between_on in Bq as (_ & Nqa & Nqb).
      cbn [app]. rewrite flat_cons. set (M := (c, xc) :: L ++ [(a, ys1)]) in *.
      assert (S1 : exists p1 it, ys2 ++ b :: xb ++ flat M = p1 :: it /\ append_skip q0 p1 it = append_skip q0 b (xb ++ flat M)).
      { destruct ys2 as [|x xs]; [eexists _, _; split; reflexivity|]. exists x, (xs ++ b :: xb ++ flat M). split; [reflexivity|]. inversion Fq as [|? ? X F']; subst.
        replace (xs ++ b :: xb ++ flat M) with ((xs ++ [b]) ++ xb ++ flat M) by (rewrite <- app_assoc; auto).
        rewrite (skip_line a b q0 Nab) by (auto; apply Forall_app; split; auto; constructor; auto using cross_b). rewrite last_last. reflexivity. }
      destruct S1 as (p1 & it & E1 & S1). unfold append_path. rewrite E1, S1, Sh. clear E1 S1.
      assert (NM : fst (nxt M b c) = c) by (unfold M; destruct L; reflexivity).
      destruct (xb ++ flat M) as [|p q] eqn:Ep.
      { exfalso. apply app_eq_nil in Ep as [_ Ep]. discriminate. }
      destruct (next_turn a b M b c xb p q) as [Tp Np]; auto; try (rewrite NM; auto).
      cbn [append_skip]. unfold is_not_line_point. rewrite (line_not q0 b p) by (eapply turn_from; eauto). cbn [negb].
      rewrite (loop_legs M b xb b c p q) by (auto; discriminate).
      destruct (run_end ((c, xc) :: L) b xb a ys1 b c O1) as (o & y & P & Ty & R). change (((c, xc) :: L) ++ [(a, ys1)]) with M in R. rewrite R.
      change ((b, c) :: pairs c ((map fst L ++ [a]) ++ [b])) with (pairs b ((map fst ((c, xc) :: L) ++ [a]) ++ [b])).
      rewrite <- app_assoc. cbn [app]. rewrite pairs_app. cbn [map fst app] in P. cbn [map fst app]. rewrite P. cbn [pairs].
      destruct ys1 as [|y1 ys1].
      + unfold append_close. rewrite (line_not y a q0) by (eapply turn_on; eauto). rewrite (line_point q0 b a) by (apply (line3 a b); auto using cross_a, cross_b).
        destruct (pt_eqb a b) eqn:Eab; [apply pt_eqb_eq in Eab; contradiction|]. rewrite !map_app. cbn [map fst snd app]. rewrite <- app_assoc. reflexivity.
      + set (l := last (y1 :: ys1) a) in *. assert (Il : In l (y1 :: ys1)).
        { unfold l. clear. revert y1. induction ys1 as [|z ys IH]; intro y1; [left; auto|]. right. apply IH. }
        rewrite Forall_forall in Fa1. specialize (Fa1 l Il). apply between_on in Fa1 as (Xl & Nl & Ml).
        unfold append_close. rewrite (line_point a l q0) by (apply (line3 a b); auto using cross_a). rewrite (line_point q0 b l) by (apply (line3 a b); auto using cross_b).
        destruct (pt_eqb a b) eqn:Eab; [apply pt_eqb_eq in Eab; contradiction|]. rewrite !map_app. cbn [map fst snd app]. reflexivity.
  Qed.
End Append.

(** ** Every way to write a contour down *)
Lemma between_mid a b p q x : a <> b -> (p = a \/ p = b \/ strictly_between a b p) -> (q = a \/ q = b \/ strictly_between a b q) -> strictly_between p q x -> strictly_between a b x.
Proof.
  intros N P Q [E O].
  assert (Cp : cross3 a b p = 0) by (destruct P as [->|[->|[P _]]]; auto using cross_a, cross_b).
  assert (Cq : cross3 a b q = 0) by (destruct Q as [->|[->|[Q _]]]; auto using cross_a, cross_b).
  assert (Npq : p <> q) by (intros ->; destruct O as [[O1 O2]|[O1 O2]]; apply (pt_lt_irrefl q); eapply pt_lt_trans; eauto).
  split.
  - apply (line3 p q); auto; apply (line3 a b); auto using cross_a, cross_b.
  - destruct P as [->|[->|[_ P]]]; destruct Q as [->|[->|[_ Q]]]; try (exfalso; apply Npq; reflexivity);
      repeat match goal with H : _ \/ _ |- _ => destruct H | H : _ /\ _ |- _ => destruct H end;
      try (left; split; eauto using pt_lt_trans; fail); try (right; split; eauto using pt_lt_trans; fail);
      exfalso; eapply pt_lt_irrefl; eauto using pt_lt_trans.
Qed.

Definition reps (c path : list pt) : Prop := exists L a ys1 ys2,
  path = ys2 ++ flat (L ++ [(a, ys1)]) /\ cyc (L ++ [(a, ys1 ++ ys2)]) /\ Permutation (edges (map fst (L ++ [(a, ys1)]))) (edges c).

Lemma ok_map l z1 z2 : turning (l ++ [z1; z2]) -> ok (map (fun p => (p, [])) l) z1 z2.
Proof.
  induction l as [|a l IH]; intro T; cbn [map ok]; auto.
  assert (X : exists b c r, l ++ [z1; z2] = b :: c :: r /\ nxt (map (fun p => (p, [])) l) z1 z2 = (b, c)).
  { destruct l as [|b [|c l]]; eexists _, _, _; split; reflexivity. }
  destruct X as (b & c & r & E & ->). cbn [app] in T. rewrite E in T. cbn [fst snd]. destruct T as [T1 T2]. split; auto. split; auto. apply IH. rewrite E. exact T2.
Qed.
Lemma flat_map_nil l : flat (map (fun p => (p, [])) l) = l.
Proof. induction l as [|a l IH]; auto. cbn [map]. rewrite flat_cons, IH. reflexivity. Qed.
Lemma flat_app L M : flat (L ++ M) = flat L ++ flat M.
Proof. apply flat_map_app. Qed.
Lemma ok_rot N : forall b xb c d, ok N b c -> cross3 b c d <> 0 -> Forall (strictly_between b c) xb -> ok (N ++ [(b, xb)]) c d.
Proof.
  induction N as [|[a xs] N IH]; intros b xb c d O T F; cbn [app ok] in *; [cbn [nxt fst snd]; auto|].
  assert (E : nxt (N ++ [(b, xb)]) c d = nxt N b c) by (destruct N as [|? [|? ?]]; auto). rewrite E. destruct O as (T1 & F1 & O). auto.
Qed.
Lemma edges_rot b l : Permutation (edges (l ++ [b])) (edges (b :: l)).
Proof.
  destruct l as [|c l]; auto. cbn [app]. rewrite !edges_pairs. cbn [app pairs]. rewrite <- app_assoc. cbn [app]. rewrite (pairs_app l c b [c]).
  cbn [pairs]. apply Permutation_sym. apply (Permutation_cons_append _ (b, c)).
Qed.

Theorem draws_reps c path : draws c path -> reps c path.
Proof.
  induction 1 as [Sh|p l D IH|a b x l D IH B].
  - destruct (exists_last (l := c)) as (l & a & E); [intros ->; destruct Sh|].
    exists (map (fun p => (p, [])) l), a, [], []. cbn [app].
    assert (M : map (fun p => (p, [])) l ++ [(a, [])] = map (fun p => (p, @nil pt)) c) by (rewrite E, map_app; reflexivity). rewrite M.
    split; [rewrite flat_map_nil; auto|]. split.
    + destruct c as [|p0 [|p1 [|p2 r]]]; try (destruct Sh; fail). exact (ok_map (p0 :: p1 :: p2 :: r) p0 p1 Sh).
    + rewrite map_map. cbn [fst]. rewrite map_id. reflexivity.
  - destruct IH as (L & a & ys1 & ys2 & E & Cy & Pm). destruct ys2 as [|y ys2].
    + destruct L as [|[b xb] [|[c1 xc] L]]; [destruct Cy|destruct Cy|]. cbn [app] in E. rewrite flat_cons in E. injection E as -> ->.
      exists ((c1, xc) :: L ++ [(a, ys1)]), b, [], xb. split; [|split].
      * rewrite (flat_app ((c1, xc) :: L ++ [(a, ys1)]) [(b, [])]). rewrite <- app_assoc. reflexivity.
      * rewrite app_nil_r in Cy. assert (O : ok ((b, xb) :: (c1, xc) :: L ++ [(a, ys1)]) b c1) by (cbn [app] in Cy; destruct L; exact Cy). clear Cy.
        cbn [app]. assert (exists d xd M, L ++ [(a, ys1)] = (d, xd) :: M) as (d & xd & M & EM) by (destruct L as [|[d xd] L]; eexists _, _, _; reflexivity).
        rewrite EM in *. cbn [app]. unfold cyc. cbn [fst].
        assert (H : ok (((c1, xc) :: (d, xd) :: M) ++ [(b, xb)]) c1 d).
        { cbn [ok] in O. apply ok_rot; [|cbn [nxt fst snd] in O; tauto..]. cbn [ok]. tauto. }
        destruct M; exact H.
      * eapply Permutation_trans; [|exact Pm]. rewrite map_app. cbn [map fst app]. apply (edges_rot b (c1 :: map fst (L ++ [(a, ys1)]))).
    + cbn [app] in E. injection E as -> ->. exists L, a, (ys1 ++ [y]), ys2. split; [|split].
      * rewrite !flat_app, <- !app_assoc. cbn [flat flat_map app]. rewrite !app_nil_r. cbn [fst snd]. reflexivity.
      * rewrite <- app_assoc. exact Cy.
      * rewrite map_app in *. exact Pm.
  - destruct IH as (L & e & ys1 & ys2 & E & Cy & Pm).
    destruct L as [|[b0 xb] [|[c1 xc] L]]; [destruct Cy|destruct Cy|].
    assert (O : ok (((b0, xb) :: (c1, xc) :: L) ++ [(e, ys1 ++ ys2)]) b0 c1) by (cbn [app] in Cy; destruct L; exact Cy). clear Cy.
    destruct (ok_last _ _ _ _ _ O) as [Te Fe]. destruct (cross_ne _ _ _ Te) as [Neb Nbc]. apply Forall_app in Fe as [Fe1 Fe2].
    assert (Goal2 : forall xb' ys2', ok (((b0, xb') :: (c1, xc) :: L) ++ [(e, ys1 ++ ys2')]) b0 c1 -> cyc (((b0, xb') :: (c1, xc) :: L) ++ [(e, ys1 ++ ys2')])).
    { intros xb' ys2' H. cbn [app]. destruct L; exact H. }
    destruct ys2 as [|y1 [|y2 ys2]].
    + assert (X : exists xb', a :: x :: b :: l = flat (((b0, xb') :: (c1, xc) :: L) ++ [(e, ys1)]) /\ Forall (strictly_between b0 c1) xb').
      { cbn [app ok] in O. assert (Ec : fst (nxt ((c1, xc) :: L ++ [(e, ys1 ++ [])]) b0 c1) = c1) by (destruct L; reflexivity). rewrite Ec in O. destruct O as (_ & Fb & _).
        cbn [app] in E. rewrite flat_cons in E. injection E as -> E. exists (x :: xb). split.
        - cbn [app]. rewrite !flat_cons. cbn [app]. rewrite <- E. reflexivity.
        - constructor; auto. destruct xb as [|z xb].
          + cbn [app] in E. injection E as -> _. auto.
          + cbn [app] in E. injection E as -> _. inversion Fb; subst. apply (between_mid b0 c1 b0 z); auto. }
      destruct X as (xb' & E' & F'). exists ((b0, xb') :: (c1, xc) :: L), e, ys1, []. split; [exact E'|]. split; [|exact Pm]. apply Goal2.
      cbn [app ok] in *. assert (Ec : fst (nxt ((c1, xc) :: L ++ [(e, ys1 ++ [])]) b0 c1) = c1) by (destruct L; reflexivity). rewrite Ec in *. tauto.
    + cbn [app] in E. rewrite flat_cons in E. injection E as -> -> El. exists ((b0, xb) :: (c1, xc) :: L), e, ys1, [y1; x]. split.
      * cbn [app]. rewrite flat_cons, El. reflexivity.
      * split; [|exact Pm]. apply Goal2. apply (ok_nxt _ e (ys1 ++ [y1])); auto. apply Forall_app. split; auto. inversion Fe2; subst. constructor; auto. constructor; auto.
        apply (between_mid e b0 y1 b0); auto.
    + cbn [app] in E. injection E as -> -> El. exists ((b0, xb) :: (c1, xc) :: L), e, ys1, (y1 :: x :: y2 :: ys2). split.
      * rewrite El. reflexivity.
      * split; [|exact Pm]. apply Goal2. apply (ok_nxt _ e (ys1 ++ y1 :: y2 :: ys2)); auto. apply Forall_app. split; auto. inversion Fe2 as [|? ? B1 F2]; subst. inversion F2 as [|? ? B2 F3]; subst.
        constructor; auto. constructor; auto. apply (between_mid e b0 y1 y2); auto.
Qed.

(** whatever way a contour is written down, the edges taken from it are those between its corners *)
Theorem append_draws {C} {WC : WindingCount C} c path t : draws c path ->
  Permutation (append_path path t) (map (fun e => with_ab (fst e) (snd e) (fst (wc_with_shape t)) (snd (wc_with_shape t))) (edges c)).
Proof.
  intro D. destruct (draws_reps c path D) as (L & a & ys1 & ys2 & -> & Cy & Pm).
  eapply Permutation_trans; [apply (append_legs (fst (wc_with_shape t)) (snd (wc_with_shape t)) L a ys1 ys2 t Cy); destruct (wc_with_shape t); reflexivity|].
  apply Permutation_map, Pm.
Qed.
