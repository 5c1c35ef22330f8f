(** * The sweep of the hole binding finds the edge under every anchor. *)
From Verif Require Import Base Spec QLib PlanarGeo FillProofs ModelFill ModelGraph GraphProofs ModelExtract Rotation ModelBind BindProofs.
Open Scope Z_scope.

(** ** the order of [cmp_by_a_then_by_angle] *)
Definition flat (s : idseg) : Prop := px (sa (id_seg s)) < px (sb (id_seg s)).
Definition turn (s o : idseg) : Z := vx (vsub (sb (id_seg s)) (sa (id_seg s))) (vsub (sb (id_seg o)) (sa (id_seg o))).
Lemma a_angle_iff s o : a_angle_leb s o = true <-> pt_lt (sa (id_seg s)) (sa (id_seg o)) \/ (sa (id_seg s) = sa (id_seg o) /\ 0 <= turn s o).
Proof.
  unfold a_angle_leb, cmp_by_a_then_by_angle. destruct (pt_cmp (sa (id_seg s)) (sa (id_seg o))) eqn:E.
  - apply pt_cmp_eq in E. unfold cmp_by_angle. fold (turn s o). change (_ - _) with (turn s o). destruct (Z.compare_spec 0 (turn s o)); split; intro H'; try discriminate; auto.
    + right. split; auto. lia.
    + right. split; auto. lia.
    + destruct H' as [L|[_ L]]; [|lia]. rewrite E in L. destruct (pt_lt_irrefl _ L).
  - apply pt_cmp_lt in E. tauto.
  - apply pt_cmp_gt in E. split; [discriminate|]. intros [L|[L _]]; [|rewrite L in E; destruct (pt_lt_irrefl _ E)].
    destruct (pt_lt_irrefl (sa (id_seg s))). eapply pt_lt_trans; eauto.
Qed.
Lemma turn_anti s o : turn o s = - turn s o.
Proof. unfold turn. apply vx_anti. Qed.
Lemma turn_trans s o q : flat s -> flat o -> flat q -> 0 <= turn s o -> 0 <= turn o q -> 0 <= turn s q.
Proof.
  unfold flat, turn, vx, vsub. cbn [fst snd]. intros A B C H1 H2.
  set (x1 := px (sb (id_seg s)) - px (sa (id_seg s))) in *. set (x2 := px (sb (id_seg o)) - px (sa (id_seg o))) in *. set (x3 := px (sb (id_seg q)) - px (sa (id_seg q))) in *.
  set (y1 := py (sb (id_seg s)) - py (sa (id_seg s))) in *. set (y2 := py (sb (id_seg o)) - py (sa (id_seg o))) in *. set (y3 := py (sb (id_seg q)) - py (sa (id_seg q))) in *.
  assert (0 < x1 /\ 0 < x2 /\ 0 < x3) as (X1 & X2 & X3) by (unfold x1, x2, x3; lia). clearbody x1 x2 x3 y1 y2 y3. clear A B C.
  assert (0 <= x2 * (x1 * y3 - y1 * x3)); [|nia].
  assert (0 <= x3 * (x1 * y2 - y1 * x2)) by nia. assert (0 <= x1 * (x2 * y3 - y2 * x3)) by nia. nia.
Qed.
Lemma a_angle_total s o : flat s -> flat o -> a_angle_leb s o = true \/ a_angle_leb o s = true.
Proof.
  intros _ _. rewrite !a_angle_iff. destruct (pt_total (sa (id_seg s)) (sa (id_seg o))) as [[L|L]|L]; auto.
  pose proof (turn_anti s o). destruct (Z_le_gt_dec 0 (turn s o)); [left; right; auto|right; right; split; auto; lia].
Qed.
Lemma a_angle_trans s o q : flat s -> flat o -> flat q -> a_angle_leb s o = true -> a_angle_leb o q = true -> a_angle_leb s q = true.
Proof.
  intros F1 F2 F3. rewrite !a_angle_iff. intros [A|[A A']] [B|[B B']].
  - left. eapply pt_lt_trans; eauto.
  - left. rewrite <- B. auto.
  - left. rewrite A. auto.
  - right. split; [congruence|]. apply (turn_trans s o q); auto.
Qed.
Lemma a_angle_refl s : a_angle_leb s s = true.
Proof. apply a_angle_iff. right. split; auto. pose proof (turn_anti s s). lia. Qed.
Lemma a_angle_px s o : a_angle_leb s o = true -> px (sa (id_seg s)) <= px (sa (id_seg o)).
Proof. intro H. apply a_angle_iff in H as [L|[-> _]]; [unfold pt_lt in L|]; lia. Qed.

(** ** sorting equal starts by angle sorts the whole list *)
Lemma runs_concat l : concat (runs l) = l.
Proof.
  induction l as [|s r IH]; auto. cbn [runs]. destruct (runs r) as [|[|t g] gs] eqn:E; cbn [concat app] in *; try (rewrite <- IH; auto).
  destruct (pt_eqb _ _); cbn [concat app]; auto.
Qed.
Lemma runs_ne l g : In g (runs l) -> g <> [].
Proof.
  revert g. induction l as [|s r IH]; intros g I; cbn [runs] in I; [destruct I|].
  destruct (runs r) as [|[|t g'] gs]; [destruct I as [<-|[]]; discriminate| |].
  - destruct I as [<-|I]; [discriminate|]. apply IH; auto.
  - destruct (pt_eqb _ _); (destruct I as [<-|I]; [discriminate|]); apply IH; [right|]; auto.
Qed.
Lemma runs_same l : forall g x y, In g (runs l) -> In x g -> In y g -> sa (id_seg x) = sa (id_seg y).
Proof.
  induction l as [|s r IH]; intros g x y I Ix Iy; cbn [runs] in I; [destruct I|].
  assert (One : forall z w, In z [s] -> In w [s] -> sa (id_seg z) = sa (id_seg w)) by (intros z w [<-|[]] [<-|[]]; auto).
  destruct (runs r) as [|[|t g'] gs] eqn:E.
  - destruct I as [<-|[]]. auto.
  - destruct I as [<-|I]; auto. eapply IH; eauto.
  - destruct (pt_eqb (sa (id_seg s)) (sa (id_seg t))) eqn:Q.
    + apply pt_eqb_eq in Q. destruct I as [<-|I]; [|apply (IH g); auto; right; auto].
      assert (K : forall z, In z (s :: t :: g') -> sa (id_seg z) = sa (id_seg t)).
      { intros z [<-|Iz]; auto. apply (IH (t :: g')); auto; [left|left]; auto. }
      rewrite (K x Ix), (K y Iy). auto.
    + destruct I as [<-|I]; auto. apply (IH g); auto.
Qed.
Lemma runs_sep l : StronglySorted (fun s t => a_leb s t = true) l ->
  StronglySorted (fun g g' => forall x y, In x g -> In y g' -> pt_lt (sa (id_seg x)) (sa (id_seg y))) (runs l).
Proof.
  induction 1 as [|s r Sr IH Fs]; [constructor|]. cbn [runs].
  pose proof (runs_concat r) as Cr. pose proof (runs_same r) as Sm. pose proof (runs_ne r) as Ne.
  rewrite Forall_forall in Fs.
  destruct (runs r) as [|[|t g] gs] eqn:E.
  - repeat constructor.
  - exfalso. apply (Ne []); auto. left; auto.
  - inversion IH as [|? ? I1 I2]; subst. rewrite Forall_forall in I2. destruct (pt_eqb (sa (id_seg s)) (sa (id_seg t))) eqn:Q.
    + apply pt_eqb_eq in Q. constructor; auto. apply Forall_forall. intros g' Ig x y [<-|Ix] Iy; [|apply (I2 g'); auto].
      rewrite Q. apply (I2 g'); auto. left; auto.
    + apply pt_eqb_neq in Q. constructor; auto.
      assert (Lt : pt_lt (sa (id_seg s)) (sa (id_seg t))).
      { apply pt_leb_lt; auto. apply Fs. cbn [concat]. left; auto. }
      apply Forall_forall. intros g' [<-|Ig] x y [<-|[]] Iy.
      * rewrite (Sm (t :: g) y t); auto; left; auto.
      * eapply pt_lt_trans; [exact Lt|]. apply (I2 g'); auto. left; auto.
Qed.
Lemma SS_concat {A} (R : A -> A -> Prop) (L : list (list A)) : (forall g, In g L -> StronglySorted R g) ->
  StronglySorted (fun g g' => forall x y, In x g -> In y g' -> R x y) L -> StronglySorted R (concat L).
Proof.
  intros H S. induction S as [|g L S IH F]; [constructor|]. cbn [concat].
  assert (G : StronglySorted R g) by (apply H; left; auto).
  assert (T : forall x y, In x g -> In y (concat L) -> R x y).
  { intros x y Ix Iy. apply in_concat in Iy as (g' & Ig & Iy). rewrite Forall_forall in F. apply (F g'); auto. }
  assert (K : StronglySorted R (concat L)) by (apply IH; intros; apply H; right; auto).
  clear - G T K. induction G as [|x g G IH F]; cbn [app]; auto. constructor.
  - apply IH. intros; apply T; auto. right; auto.
  - apply Forall_app. split; auto. apply Forall_forall. intros y Iy. apply T; auto. left; auto.
Qed.
Lemma add_sort_perm l : Permutation (add_sort_by_angle l) l.
Proof.
  unfold add_sort_by_angle. rewrite <- (runs_concat l) at 2. induction (runs l) as [|g gs IH]; auto. cbn [map concat]. rewrite IH, isort_perm. auto.
Qed.
Lemma add_sort_sorted l : Forall flat l -> StronglySorted (fun s t => a_leb s t = true) l ->
  StronglySorted (fun s t => a_angle_leb s t = true) (add_sort_by_angle l).
Proof.
  intros F S. unfold add_sort_by_angle.
  assert (Fr : forall g x, In g (runs l) -> In x g -> flat x).
  { intros g x Ig Ix. rewrite Forall_forall in F. apply F. rewrite <- (runs_concat l). apply in_concat. eauto. }
  assert (An : forall x y, angle_only_leb x y = true <-> 0 <= turn x y).
  { intros x y. unfold angle_only_leb, cmp_by_angle. change (_ - _) with (turn x y). destruct (Z.compare_spec 0 (turn x y)); split; intro; try discriminate; auto; lia. }
  apply SS_concat.
  - intros g' I. apply in_map_iff in I as (g & <- & Ig).
    assert (SG : StronglySorted (fun s t => angle_only_leb s t = true) (isort angle_only_leb g)).
    { apply (isort_sorted_on angle_only_leb flat).
      - intros x y _ _. rewrite !An. pose proof (turn_anti x y). lia.
      - intros x y z A B C. rewrite !An. apply turn_trans; auto.
      - apply Forall_forall. intros x Ix. apply (Fr g); auto. }
    apply (SS_impl_in) with (2 := SG). intros x y Ix Iy L.
    assert (Px : In x g) by (eapply Permutation_in; [apply isort_perm|exact Ix]). assert (Py : In y g) by (eapply Permutation_in; [apply isort_perm|exact Iy]).
    apply a_angle_iff. right. split; [apply (runs_same l g); auto|]. apply An; auto.
  - pose proof (runs_sep l S) as R. clear - R. induction R as [|g gs S IH F]; [constructor|]. cbn [map]. constructor; auto.
    apply Forall_forall. intros g' I x y Ix Iy. apply in_map_iff in I as (g2 & <- & Ig). rewrite Forall_forall in F.
    apply a_angle_iff. left. apply (F g2); auto; (eapply Permutation_in; [apply isort_perm|]; eauto).
Qed.

(** ** the scan list *)
Lemma expire_twice {V} t t' (s : list (xseg * V)) : t <= t' -> expire t' (expire t s) = expire t' s.
Proof.
  intro L. unfold expire. induction s as [|e r IH]; auto. cbn [filter]. destruct (Z.ltb_spec t (px (sb (fst e)))); cbn [filter]; rewrite IH; auto.
  destruct (Z.ltb_spec t' (px (sb (fst e)))); auto. lia.
Qed.
Lemma expire_insert {V} t k (v : V) s : t < px (sb k) -> expire t (scan_insert k v (expire t s)) = scan_insert k v (expire t s).
Proof.
  intro L. assert (H : forall e, In e (scan_insert k v (expire t s)) -> (t <? px (sb (fst e))) = true).
  { intros e I. apply scan_insert_in in I as [->|I]; [apply Z.ltb_lt; auto|]. unfold expire in I. apply filter_In in I. tauto. }
  unfold expire at 1. revert H. generalize (scan_insert k v (expire t s)). intros l H. induction l as [|e l IH]; auto. cbn [filter].
  rewrite (H e) by (left; auto). rewrite IH; auto. intros; apply H; right; auto.
Qed.
Definition entry (y : idseg) : xseg * owner := (id_seg y, (id_hole y, id_ix y)).

Lemma find_lt_hit u : forall L1 d k v (L2 : list (xseg * owner)), (forall x, In x L1 -> vseg_cmp (fst x) u = Lt) -> vseg_cmp k u = Lt ->
  (forall x, In x L2 -> vseg_cmp (fst x) u <> Lt) -> find_lt u d (L1 ++ (k, v) :: L2) = Some v.
Proof.
  induction L1 as [|[k1 v1] L1 IH]; intros d k v L2 H1 Hk H2; cbn [app find_lt].
  - rewrite Hk. destruct L2 as [|[k2 v2] L2]; auto. cbn [find_lt]. specialize (H2 (k2, v2) (or_introl eq_refl)). cbn [fst] in H2.
    destruct (vseg_cmp k2 u); congruence.
  - pose proof (H1 (k1, v1) (or_introl eq_refl)) as E. cbn [fst] in E. rewrite E. apply IH; auto. intros x I. apply H1. right; auto.
Qed.

Lemma vseg_cmp_refl s : vseg_cmp s s = Eq.
Proof. unfold vseg_cmp. replace (pt_cmp (sa s) (sa s)) with Eq by (destruct (pt_cmp (sa s) (sa s)) eqn:E; auto; [apply pt_cmp_lt in E|apply pt_cmp_gt in E]; destruct (pt_lt_irrefl _ E)).
  unfold clock_order, cross3. replace (_ - _) with 0 by ring. reflexivity. Qed.

Section Bind.
  Variable Dom : xseg -> Prop.
  Hypothesis Pl : forall s t, Dom s -> Dom t -> s <> t -> forall q, on_seg s q -> on_seg t q -> is_end s q /\ is_end t q.
  Variable segs0 : list idseg.
  Hypothesis SD : forall y, In y segs0 -> Dom (id_seg y) /\ flat y.
  Hypothesis ND : NoDup (map id_seg segs0).
  Hypothesis SS : StronglySorted (fun s t => a_angle_leb s t = true) segs0.

  Record binv (t : Z) (fed : list idseg) (scan : list (xseg * owner)) : Prop := {
    v_sorted : StronglySorted (fun k k' => lt_at (inject_Z t) (fst k) (fst k')) (expire t scan);
    v_val : forall e, In e (expire t scan) -> exists y, In y fed /\ e = entry y /\ spans (id_seg y) (inject_Z t) = true;
    v_all : forall y, In y fed -> t < px (sb (id_seg y)) -> In (entry y) (expire t scan) }.

  Lemma binv_mono t t' fed scan : (forall y, In y fed -> In y segs0) -> t <= t' -> binv t fed scan -> binv t' fed scan.
  Proof.
    intros Fs L [S V A]. 
    assert (Ex : forall e, In e (expire t' scan) -> In e (expire t scan) /\ t' < px (sb (fst e))).
    { intros e I. rewrite <- (expire_twice t t') in I by auto. unfold expire in I at 1. apply filter_In in I. split; [tauto|]. apply Z.ltb_lt; tauto. }
    assert (Sp : forall y, spans (id_seg y) (inject_Z t) = true -> t' < px (sb (id_seg y)) -> spans (id_seg y) (inject_Z t') = true).
    { intros y H H2. apply spans_iff in H. apply spans_iff. pose proof (proj2 (qz_lt _ _) H2). pose proof (proj2 (qz_le _ _) L). unfold qx in *. lra. }
    constructor.
    - rewrite <- (expire_twice t t') by auto. apply SS_impl_in with (R := fun k k' => lt_at (inject_Z t) (fst k) (fst k')); [|apply SS_filter; auto].
      intros e e' I I' Lt. rewrite expire_twice in I, I' by auto. destruct (Ex e I) as [J X]. destruct (Ex e' I') as [J' X'].
      destruct (V e J) as (y & Iy & -> & Sy). destruct (V e' J') as (y' & Iy' & -> & Sy'). cbn [fst entry] in *.
      assert (N : id_seg y <> id_seg y') by (intro E; rewrite E in Lt; apply (lt_at_irrefl _ _ Lt)).
      apply (lt_at_stable _ _ (Pl _ _ (proj1 (SD y (Fs y Iy))) (proj1 (SD y' (Fs y' Iy'))) N) (inject_Z t)); auto.
    - intros e I. destruct (Ex e I) as [J X]. destruct (V e J) as (y & Iy & -> & Sy). exists y. split; auto.
    - intros y Iy X. rewrite <- (expire_twice t t') by auto. unfold expire at 1. apply filter_In. split; [apply A; auto; lia|]. apply Z.ltb_lt. auto.
  Qed.

  Lemma id_inj y y' : In y segs0 -> In y' segs0 -> id_seg y = id_seg y' -> y = y'.
  Proof.
    intros I I' E. apply In_nth_error in I as (i & Hi). apply In_nth_error in I' as (j & Hj).
    assert (i = j); [|congruence]. apply (proj1 (NoDup_nth_error _) ND); [rewrite map_length; apply nth_error_Some; congruence|].
    rewrite !nth_error_map, Hi, Hj. simpl. congruence.
  Qed.

  Lemma feed_spec anchor : forall segs fed scan segs' scan', segs0 = fed ++ segs ->
    binv (px (sa (id_seg anchor))) fed scan -> feed anchor segs scan = (segs', scan') ->
    exists f, segs = f ++ segs' /\ binv (px (sa (id_seg anchor))) (fed ++ f) scan' /\ forall y r, segs' = y :: r -> a_angle_leb y anchor = false.
  Proof.
    set (t := px (sa (id_seg anchor))). induction segs as [|s r IH]; intros fed scan segs' scan' E B F; cbn [feed] in F.
    - injection F as <- <-. exists []. rewrite (app_nil_r fed). split; auto. split; auto. intros; discriminate.
    - assert (Go : a_angle_leb s anchor = true -> feed anchor r (if t <? px (sb (id_seg s)) then scan_insert (id_seg s) (id_hole s, id_ix s) (expire t scan) else scan) = (segs', scan') ->
        exists f, s :: r = f ++ segs' /\ binv t (fed ++ f) scan' /\ forall y r', segs' = y :: r' -> a_angle_leb y anchor = false).
      { clear F. intros L F. assert (Is : In s segs0) by (rewrite E; apply in_or_app; right; left; auto). destruct (SD s Is) as [Ds Fl].
        refine ((fun X Y => _) (IH (fed ++ [s]) _ segs' scan') F). destruct (X) with (3 := F) as (f & Ef & Bf & Hf); clear X Y.
        - rewrite <- app_assoc. auto.
        - destruct (Z.ltb_spec t (px (sb (id_seg s)))) as [X|X].
          + assert (Sp : spans (id_seg s) (inject_Z t) = true).
            { apply spans_iff. pose proof (proj2 (qz_lt _ _) X). pose proof (proj2 (qz_le _ _) (a_angle_px _ _ L)). unfold qx, t in *. lra. }
            destruct B as [S V A]. constructor.
            * rewrite expire_insert by auto. apply scan_insert_sorted; auto. intros k' v' Ik. destruct (V (k', v') Ik) as (y & Iy & Ey & Sy).
              unfold entry in Ey. injection Ey as -> ->. assert (Iy0 : In y segs0) by (rewrite E; apply in_or_app; auto).
              assert (N : id_seg s <> id_seg y).
              { intro Es. pose proof ND as N. rewrite E, map_app in N. cbn [map] in N. apply NoDup_remove_2 in N. apply N. apply in_or_app. left. rewrite Es. apply in_map; auto. }
              pose proof (Pl _ _ Ds (proj1 (SD y Iy0)) N) as Py. split; [apply vseg_cmp_lt; auto|apply (lt_at_total _ _ Py); auto].
            * intros e I. rewrite expire_insert in I by auto. apply scan_insert_in in I as [->|I].
              -- exists s. split; [apply in_or_app; right; left; auto|]. split; auto.
              -- destruct (V e I) as (y & Iy & Ey & Sy). exists y. split; [apply in_or_app; auto|]. auto.
            * intros y Iy Xy. rewrite expire_insert by auto. apply scan_insert_in. apply in_app_iff in Iy as [Iy|[<-|[]]]; [right; apply A; auto|left; auto].
          + destruct B as [S V A]. constructor; auto.
            * intros e I. destruct (V e I) as (y & Iy & Ey & Sy). exists y. split; [apply in_or_app; auto|]. auto.
            * intros y Iy Xy. apply in_app_iff in Iy as [Iy|[<-|[]]]; [apply A; auto|lia].
        - exists (s :: f). split; [rewrite Ef; auto|]. split; auto. rewrite <- app_assoc in Bf. auto. }
      unfold a_angle_leb in Go. destruct (cmp_by_a_then_by_angle s anchor) eqn:Cm; [apply Go; auto|apply Go; auto|].
      injection F as <- <-. exists []. rewrite (app_nil_r fed). split; auto. split; auto. intros y r' Ey. injection Ey as <- <-. unfold a_angle_leb. rewrite Cm. auto.
  Qed.

  (** the edge directly under an anchor *)
  Record under_edge (a e : idseg) : Prop := {
    ue_in : In e segs0;
    ue_leb : a_angle_leb e a = true;
    ue_dom : Dom (id_seg a) /\ flat a;
    ue_spans : spans (id_seg e) (qx (sa (id_seg a))) = true;
    ue_lt : lt_at (qx (sa (id_seg a))) (id_seg e) (id_seg a);
    ue_max : forall y, In y segs0 -> spans (id_seg y) (qx (sa (id_seg a))) = true -> lt_at (qx (sa (id_seg a))) (id_seg y) (id_seg a) ->
      y <> e -> lt_at (qx (sa (id_seg a))) (id_seg y) (id_seg e) }.

  Lemma find_spec a e fed rest scan : segs0 = fed ++ rest -> binv (px (sa (id_seg a))) fed scan -> under_edge a e ->
    (forall y r, rest = y :: r -> a_angle_leb y a = false) ->
    find_lt (id_seg a) None (expire (px (sa (id_seg a))) scan) = Some (id_hole e, id_ix e).
  Proof.
    intros E [S V A] [Ie Le [Da Fa] Sp Lte Mx] Hr. set (t := px (sa (id_seg a))) in *. change (qx (sa (id_seg a))) with (inject_Z t) in *.
    assert (Sa : spans (id_seg a) (inject_Z t) = true) by (apply spans_own; apply qlt_z; auto).
    assert (Ife : In e fed).
    { rewrite E in Ie. apply in_app_iff in Ie as [I|I]; auto. exfalso. destruct rest as [|y r]; [destruct I|]. specialize (Hr y r eq_refl).
      destruct I as [->|I]; [congruence|]. assert (Iy : In y segs0) by (rewrite E; apply in_or_app; right; left; auto).
      assert (Iee : In e segs0) by (rewrite E; apply in_or_app; right; right; auto).
      assert (Lye : a_angle_leb y e = true).
      { pose proof SS as S2. rewrite E in S2. clear - S2 I. induction fed as [|z fed IH]; cbn [app] in S2; inversion S2 as [|? ? S3 F]; subst; auto. rewrite Forall_forall in F. auto. }
      rewrite (a_angle_trans y e a) in Hr; auto; try (apply SD; auto). discriminate. }
    assert (Iex : In (entry e) (expire t scan)).
    { apply A; auto. apply spans_iff in Sp. apply (proj1 (qz_lt _ _)). apply Sp. }
    assert (Cmp : forall x, In x (expire t scan) -> exists y, In y fed /\ In y segs0 /\ x = entry y /\ spans (id_seg y) (inject_Z t) = true /\ (vseg_cmp (fst x) (id_seg a) = Lt <-> lt_at (inject_Z t) (id_seg y) (id_seg a))).
    { intros x I. destruct (V x I) as (y & Iy & -> & Sy). assert (Iy0 : In y segs0) by (rewrite E; apply in_or_app; auto).
      exists y. do 4 (split; auto). cbn [fst entry]. destruct (xseg_eq_dec (id_seg y) (id_seg a)) as [X|X].
      - rewrite X, vseg_cmp_refl. split; [discriminate|]. intro L. destruct (lt_at_irrefl _ _ L).
      - apply vseg_cmp_lt; auto. apply Pl; auto; apply SD; auto. }
    apply in_split in Iex as (L1 & L2 & El). rewrite El in *.
    assert (S1 : forall x, In x L1 -> lt_at (inject_Z t) (fst x) (id_seg e)).
    { intros x I. clear - S I. induction L1 as [|z L1 IH]; [destruct I|]. cbn [app] in S. inversion S as [|? ? S2 F]; subst. destruct I as [->|I]; auto.
      rewrite Forall_forall in F. apply (F (entry e)). apply in_or_app. right; left; auto. }
    assert (S2 : forall x, In x L2 -> lt_at (inject_Z t) (id_seg e) (fst x)).
    { intros x I. clear - S I. induction L1 as [|z L1 IH]; cbn [app] in S; inversion S as [|? ? S2 F]; subst; auto. rewrite Forall_forall in F. apply (F x I). }
    apply find_lt_hit.
    - intros x I. destruct (Cmp x) as (y & Iy & Iy0 & Ey & Sy & Cy); [apply in_or_app; auto|]. apply Cy. specialize (S1 x I). rewrite Ey in S1. cbn [fst entry] in S1. eapply lt_at_trans; eauto.
    - destruct (Cmp (entry e)) as (y & Iy & Iy0 & Ey & Sy & Cy); [apply in_or_app; right; left; auto|]. apply Cy. unfold entry in Ey. injection Ey as Ey _ _. rewrite <- Ey. auto.
    - intros x I Lx. destruct (Cmp x) as (y & Iy & Iy0 & Ey & Sy & Cy); [apply in_or_app; right; right; auto|]. apply Cy in Lx. specialize (S2 x I). rewrite Ey in S2. cbn [fst entry] in S2.
      destruct (xseg_eq_dec (id_seg y) (id_seg e)) as [X|X]; [rewrite X in S2; apply (lt_at_irrefl _ _ S2)|].
      assert (Ny : y <> e) by congruence. apply (lt_at_asym _ _ _ S2). apply Mx; auto.
  Qed.

  Variable nO : nat.
  Variable R : nat -> nat -> Prop.
  Hypothesis RO : forall h k, R h k -> (k < nO)%nat.
  Variable anchors0 : list idseg.
  Hypothesis AS : StronglySorted (fun s t => a_angle_leb s t = true) anchors0.
  Hypothesis AI : forall a a', In a anchors0 -> In a' anchors0 -> id_ix a = id_ix a' -> a = a'.
  Hypothesis AE : forall a, In a anchors0 -> exists e, under_edge a e /\
    (if id_hole e then (exists a', In a' anchors0 /\ id_ix a' = id_ix e /\ a_angle_leb a a' = false) /\ (forall k, R (id_ix e) k -> R (id_ix a) k)
     else R (id_ix a) (id_ix e)).

  Lemma bind_ok : forall anchors done segs fed scan t parents, anchors0 = done ++ anchors -> segs0 = fed ++ segs -> binv t fed scan ->
    (forall a, In a anchors -> t <= px (sa (id_seg a))) -> (forall a, In a anchors0 -> (id_ix a < length parents)%nat) ->
    (forall a, In a done -> exists k, nth_error parents (id_ix a) = Some (Some k) /\ R (id_ix a) k) ->
    exists parents', bind_loop nO anchors segs scan parents = Some parents' /\ length parents' = length parents /\
      forall a, In a anchors0 -> exists k, nth_error parents' (id_ix a) = Some (Some k) /\ R (id_ix a) k.
  Proof.
    induction anchors as [|a rest IH]; intros done segs fed scan t parents Ea Es B Tm Lp Dn; cbn [bind_loop].
    - rewrite app_nil_r in Ea. subst done. exists parents. auto.
    - assert (Ia : In a anchors0) by (rewrite Ea; apply in_or_app; right; left; auto).
      destruct (feed a segs scan) as [segs' scan'] eqn:F.
      assert (Bt : binv (px (sa (id_seg a))) fed scan).
      { eapply binv_mono; [|apply Tm; left; auto|exact B]. intros y I. rewrite Es. apply in_or_app; auto. }
      destruct (feed_spec a segs fed scan segs' scan' Es Bt F) as (f & Ef & Bf & Hf).
      assert (Es' : segs0 = (fed ++ f) ++ segs') by (rewrite <- app_assoc, <- Ef; auto).
      destruct (AE a Ia) as (e & Ue & Own). rewrite (find_spec a e _ _ _ Es' Bf Ue Hf).
      assert (Nx : forall k, R (id_ix a) k -> exists parents',
        (if (k <? nO)%nat && (id_ix a <? length parents)%nat then bind_loop nO rest segs' (expire (px (sa (id_seg a))) scan') (upd (id_ix a) (fun _ => Some k) parents) else None) = Some parents' /\
        length parents' = length parents /\ forall a, In a anchors0 -> exists k, nth_error parents' (id_ix a) = Some (Some k) /\ R (id_ix a) k).
      { intros k Rk. rewrite (proj2 (Nat.ltb_lt _ _) (RO _ _ Rk)), (proj2 (Nat.ltb_lt _ _) (Lp a Ia)). cbn [andb].
        destruct (IH (done ++ [a]) segs' (fed ++ f) (expire (px (sa (id_seg a))) scan') (px (sa (id_seg a))) (upd (id_ix a) (fun _ => Some k) parents)) as (parents' & E' & L' & H').
        - rewrite <- app_assoc. auto.
        - auto.
        - destruct Bf as [S V A]. constructor; rewrite expire_twice by lia; auto.
        - intros a' I'. apply a_angle_px. pose proof AS as S2. rewrite Ea in S2. clear - S2 I'. induction done as [|z d IH]; cbn [app] in S2; inversion S2 as [|? ? S3 F]; subst; auto. rewrite Forall_forall in F. auto.
        - intros a' I'. rewrite upd_length. auto.
        - intros a' I'. rewrite upd_nth. destruct (Nat.eqb_spec (id_ix a) (id_ix a')) as [X|X].
          + exists k. rewrite <- X. split; auto. pose proof (Lp a Ia) as La. destruct (nth_error parents (id_ix a)) eqn:Hn; auto. apply nth_error_None in Hn. lia.
          + apply in_app_iff in I' as [I'|[<-|[]]]; [|contradiction]. auto.
        - exists parents'. split; [exact E'|]. split; auto. rewrite L', upd_length. auto. }
      destruct (id_hole e).
      + destruct Own as ((a' & Ia' & Xa' & Lt) & Tr). assert (Id : In a' done).
        { rewrite Ea in Ia'. apply in_app_iff in Ia' as [I|I]; auto. exfalso. destruct I as [->|I]; [rewrite a_angle_refl in Lt; discriminate|].
          pose proof AS as S2. rewrite Ea in S2. assert (a_angle_leb a a' = true); [|congruence].
          clear - S2 I. induction done as [|z d IH]; cbn [app] in S2; inversion S2 as [|? ? S3 F]; subst; auto. rewrite Forall_forall in F. auto. }
        destruct (Dn a' Id) as (k & Nk & Rk). rewrite Xa' in *. rewrite Nk. apply Nx. apply Tr; auto.
      + apply Nx. auto.
  Qed.
End Bind.

(** ** the segments of a contour *)
Fixpoint chain_e (a : pt) (l : list pt) : list (pt * pt) := match l with [] => [] | b :: r => (a, b) :: chain_e b r end.
Definition swap (e : pt * pt) : pt * pt := (snd e, fst e).
Lemma chain_app : forall l1 a b l2, chain_e a (l1 ++ b :: l2) = chain_e a (l1 ++ [b]) ++ chain_e b l2.
Proof. induction l1 as [|x l1 IH]; intros a b l2; cbn [app chain_e]; auto. rewrite IH. auto. Qed.
Lemma edges_chain p l : edges (p :: l) = chain_e p (l ++ [p]).
Proof.
  unfold edges. assert (H : forall m a, combine (a :: m) (m ++ [p]) = chain_e a (m ++ [p])); [|apply H].
  induction m as [|x m IH]; intro a; auto. cbn [app chain_e]. rewrite <- IH. auto.
Qed.
Lemma chain_rev : forall l a b, Permutation (chain_e b (rev l ++ [a])) (map swap (chain_e a (l ++ [b]))).
Proof.
  induction l as [|x l IH]; intros a b; auto. cbn [rev app chain_e map]. rewrite <- app_assoc. cbn [app]. rewrite chain_app. cbn [chain_e].
  rewrite (IH x b). rewrite Permutation_app_comm. auto.
Qed.
Lemma edges_rev c : Permutation (edges (rev c)) (map swap (edges c)).
Proof.
  destruct c as [|p l]; auto. rewrite edges_chain. cbn [rev]. pose proof (chain_rev l p p) as H.
  destruct (rev l) as [|z m] eqn:E; cbn [app] in *.
  - rewrite edges_chain. exact H.
  - rewrite edges_chain. rewrite <- H. rewrite <- app_assoc. cbn [app]. rewrite chain_app. cbn [chain_e]. rewrite Permutation_app_comm. auto.
Qed.
Definition put_id (hole : bool) (ix : nat) (xm xM : Z) (e : pt * pt) : list idseg :=
  if (px (snd e) <? px (fst e)) && (xm <? px (fst e)) && (px (snd e) <=? xM) then [IdS hole ix (XS (snd e) (fst e))] else [].
Lemma id_segments_edges hole ix xm xM first : forall l b, id_segments hole ix xm xM first b l = flat_map (put_id hole ix xm xM) (chain_e b (l ++ [first])).
Proof.
  induction l as [|a l IH]; intro b; cbn [id_segments app chain_e flat_map]; [rewrite app_nil_r; auto|]. rewrite IH. auto.
Qed.
Lemma append_edges c hole ix xm xM cw : c <> [] -> append_id_segments c hole ix xm xM cw = Some (flat_map (put_id hole ix xm xM) (edges (if cw then c else rev c))).
Proof.
  intro N. unfold append_id_segments. assert (N' : (if cw then c else rev c) <> []).
  { destruct cw; auto. intro E. apply N. rewrite <- (rev_involutive c), E. auto. }
  destruct (if cw then c else rev c) as [|p r]; [contradiction|]. rewrite id_segments_edges, edges_chain. auto.
Qed.
Lemma all_some_map {A B} (f : A -> option B) (h : A -> B) l : (forall x, In x l -> f x = Some (h x)) -> all_some (map f l) = Some (map h l).
Proof.
  induction l as [|x l IH]; intro H; auto. cbn [map all_some]. rewrite (H x) by (left; auto). rewrite IH; auto. intros; apply H; right; auto.
Qed.
Lemma id_contours_some hole xm xM cw cs : (forall c, In c cs -> c <> []) ->
  id_of_contours hole xm xM cw cs = Some (flat_map (fun ic => flat_map (put_id hole (fst ic) xm xM) (edges (if cw then snd ic else rev (snd ic)))) (enum cs)).
Proof.
  intro H. unfold id_of_contours. rewrite (all_some_map _ (fun ic => flat_map (put_id hole (fst ic) xm xM) (edges (if cw then snd ic else rev (snd ic))))).
  - cbn [option_map]. rewrite flat_map_concat_map. auto.
  - intros [i c] I. cbn [fst snd]. apply append_edges. apply H. apply enum_nth in I. eapply nth_error_In; eauto.
Qed.
Lemma NoDup_join {A} (l m : list A) : NoDup l -> NoDup m -> (forall z, In z l -> In z m -> False) -> NoDup (l ++ m).
Proof.
  induction 1 as [|x l N Nd IH]; intros M D; auto. cbn [app]. constructor.
  - intro I. apply in_app_iff in I as [I|I]; auto. apply (D x); auto. left; auto.
  - apply IH; auto. intros z I. apply D. right; auto.
Qed.
Lemma NoDup_flat_map {A B} (f : A -> list B) l : NoDup l -> (forall x, In x l -> NoDup (f x)) ->
  (forall x y z, In x l -> In y l -> In z (f x) -> In z (f y) -> x = y) -> NoDup (flat_map f l).
Proof.
  induction 1 as [|x l N Nd IH]; intros H D; [constructor|]. cbn [flat_map]. apply NoDup_join; [apply H; left; auto| |].
  - apply IH; intros; [apply H; right; auto|]. apply (D x0 y z); auto; right; auto.
  - intros z I I'. apply in_flat_map in I' as (y & Iy & Iz). apply N. rewrite (D x y z); auto; [left|right]; auto.
Qed.
Lemma map_flat_map {A B C} (g : B -> C) (f : A -> list B) l : map g (flat_map f l) = flat_map (fun x => map g (f x)) l.
Proof. induction l as [|x l IH]; auto. cbn [flat_map map]. rewrite map_app, IH. auto. Qed.
Lemma flat_map_perm {A B} (f : A -> list B) l l' : Permutation l l' -> Permutation (flat_map f l) (flat_map f l').
Proof. intro H. apply Permutation_flat_map; auto. Qed.

Lemma pt_leb_le p q : ~ pt_lt q p -> pt_leb p q = true.
Proof. unfold pt_leb, pt_ltb, pt_eqb, pt_lt. lia. Qed.
Lemma SS_nth {A} (R : A -> A -> Prop) (l : list A) : (forall i j a b, (i < j)%nat -> nth_error l i = Some a -> nth_error l j = Some b -> R a b) -> StronglySorted R l.
Proof.
  induction l as [|x l IH]; intro H; [constructor|]. constructor.
  - apply IH. intros i j a b L Hi Hj. apply (H (S i) (S j)); auto. lia.
  - apply Forall_forall. intros y I. apply In_nth_error in I as (j & Hj). apply (H 0%nat (S j)); auto. lia.
Qed.
Lemma sorted_a_ok l : StronglySorted (fun s t => a_leb s t = true) l -> is_sorted_a l = true.
Proof.
  induction 1 as [|s l S IH F]; auto. destruct l as [|t l]; auto. cbn [is_sorted_a]. inversion F; subst. unfold a_leb in *. rewrite H1. cbn [is_sorted_a] in IH. rewrite IH. auto.
Qed.
Lemma last_max {A} (R : A -> A -> Prop) (l : list A) d a : (forall x, R x x) -> StronglySorted R l -> In a l -> R a (last l d).
Proof.
  intros Rf S. revert a. induction S as [|x l S IH F]; intros a I; [destruct I|]. destruct l as [|y l]; [destruct I as [->|[]]; apply Rf|].
  change (last (x :: y :: l) d) with (last (y :: l) d). destruct I as [->|I]; auto. rewrite Forall_forall in F. apply F.
  assert (H : forall (m : list A) z, In (last (z :: m) d) (z :: m)); [|apply H].
  induction m as [|w m IHm]; intro z; [left; auto|]. right. apply (IHm w).
Qed.
Lemma push_some : forall holes par (shapes : list (list (list pt))), length par = length holes -> Forall (fun k => (k < length shapes)%nat) par ->
  exists out, push_holes (map Some par) holes shapes = Some out.
Proof.
  induction holes as [|h hs IH]; intros [|k par] shapes L F; simpl in L; try lia; cbn [map push_holes]; eauto.
  inversion F; subst. rewrite (proj2 (Nat.ltb_lt _ _)) by auto. apply IH; [lia|]. rewrite upd_length. auto.
Qed.
Lemma all_somes {A} (l : list (option A)) : (forall i x, nth_error l i = Some x -> exists k, x = Some k) -> exists par, l = map Some par.
Proof.
  induction l as [|x l IH]; intro H; [exists []; auto|]. destruct (H 0%nat x eq_refl) as (k & ->). destruct IH as (par & ->); [intros i y E; apply (H (S i)); auto|].
  exists (k :: par). auto.
Qed.
