(** * How far from the path the points of strokes and offsets are, in exact arithmetic *)
From Verif Require Import Base Spec ModelSegm SegmProofs ModelMesh MeshProofs MeshStrip ModelRect.
From Coq Require Import Reals Lra Psatz Qreals.
From Verif Require Import RealMesh RealJoin.
Open Scope R_scope.

(** how far from a vertex the corner of a join may reach *)
Definition join_reach (r : R) (j : line_join RF) : R :=
  match j with MiterJoin _ a => Rabs r / sin (miter_angle a / 2) | _ => Rabs r end.
Definition near_pt (to_int : R * R -> pt) (y : R * R) (d : R) (e : pt) : Prop := exists p, e = to_int p /\ dist p y <= d.

Lemma half_sin a : 0 < sin (miter_angle a / 2) <= 1.
Proof.
  pose proof (miter_range a) as A. pose proof PI_RGT_0. split; [apply sin_gt_0; lra|]. apply SIN_bound.
Qed.
Lemma reach_ge r j : Rabs r <= join_reach r j.
Proof.
  destruct j as [|a|a]; unfold join_reach; try lra. pose proof (half_sin a) as [A B]. pose proof (Rabs_pos r).
  apply (Rmult_le_reg_r (sin (miter_angle a / 2))); auto. replace (Rabs r / sin (miter_angle a / 2) * sin (miter_angle a / 2)) with (Rabs r) by (field; lra). nra.
Qed.
Lemma reach_pos r j : 0 <= join_reach r j.
Proof. pose proof (reach_ge r j). pose proof (Rabs_pos r). lra. Qed.
(** the two ways in which a miter reaches its limit *)
Lemma miter_len a r l : l = r / tan (miter_angle a / 2) -> r * r + l * l = join_reach r (MiterJoin RF a) * join_reach r (MiterJoin RF a).
Proof.
  intros ->. pose proof (half_sin a) as [A B]. pose proof (miter_range a) as M. pose proof PI_RGT_0. set (h := miter_angle a / 2) in *.
  assert (C : 0 < cos h) by (apply cos_gt_0; unfold h; lra). unfold join_reach, tan. fold h.
  assert (R2 : Rabs r * Rabs r = r * r) by (rewrite <- Rabs_mult; apply Rabs_pos_eq; nra).
  replace (Rabs r / sin h * (Rabs r / sin h)) with (Rabs r * Rabs r / (sin h * sin h)) by (field; lra). rewrite R2.
  replace (r * r + r / (sin h / cos h) * (r / (sin h / cos h))) with (r * r * (cos h * cos h + sin h * sin h) / (sin h * sin h)) by (field; lra).
  rewrite sc1. field. lra.
Qed.
Lemma miter_sharp a r c d : - cos (miter_angle a) <= c -> d * (1 + c) = 2 * (r * r) -> d <= join_reach r (MiterJoin RF a) * join_reach r (MiterJoin RF a).
Proof.
  intros L E. pose proof (half_sin a) as [A B]. set (h := miter_angle a / 2) in *. replace (miter_angle a) with (2 * h) in L by (unfold h; lra). rewrite cos_2a_sin in L.
  assert (R2 : Rabs r * Rabs r = r * r) by (rewrite <- Rabs_mult; apply Rabs_pos_eq; nra). unfold join_reach. fold h.
  replace (Rabs r / sin h * (Rabs r / sin h)) with (r * r / (sin h * sin h)) by (rewrite <- R2; field; lra).
  assert (S2 : 0 < sin h * sin h) by nra. apply (Rmult_le_reg_r (1 + c)); [lra|]. rewrite E.
  apply (Rmult_le_reg_r (sin h * sin h)); auto. replace (r * r / (sin h * sin h) * (1 + c) * (sin h * sin h)) with (r * r * (1 + c)) by (field; lra). nra.
Qed.
Lemma limit_gt a : -1 < - cos (miter_angle a).
Proof.
  pose proof (half_sin a) as [A B]. replace (miter_angle a) with (2 * (miter_angle a / 2)) by lra. rewrite cos_2a_sin. nra.
Qed.
Lemma fixed_real a : Rmax (miter_angle a) (Q2R (1 # 100)) = miter_angle a.
Proof. rewrite q_1_100. apply Rmax_left. pose proof (miter_range a). pose proof PI2_3_2. lra. Qed.

Section Reach.
  Variables (to_int : R * R -> pt) (x y z : R * R) (r : R).
  Hypothesis Nxy : x <> y.
  Hypothesis Nyz : y <> z.
  Let u := dir x y.
  Let v := dir y z.
  Let Uu : unit u := dir_unit x y Nxy.
  Let Uv : unit v := dir_unit y z Nyz.
  Notation near := (near_pt to_int y).

  Lemma near_off d w : unit w -> Rabs r <= d -> near d (to_int (off y w r)).
  Proof. intros U L. exists (off y w r). split; auto. rewrite dist_off by auto. exact L. Qed.
  Lemma near_add p q d s e : near d (to_int p) -> near d (to_int q) -> In s (add_segment RF to_int p q) -> ends s e -> near d e.
  Proof.
    intros P Q H E. unfold add_segment in H. destruct (pt_eqb _ _); [destruct H|]. destruct H as [<-|[]]. apply ends_bold in E as [->| ->]; auto.
  Qed.
  Lemma near_push a b d s e : near d a -> near d b -> In s (push_ne a b) -> ends s e -> near d e.
  Proof. intros P Q H E. unfold push_ne in H. destruct (pt_eqb _ _); [destruct H|]. destruct H as [<-|[]]. apply ends_bold in E as [->| ->]; auto. Qed.
  Lemma near_dist p d : 0 <= d -> dist2 p y <= d * d -> near d (to_int p).
  Proof. intros P L. exists p. split; auto. apply dist_le; auto. Qed.

  Lemma stroke_join_near j s e : In s (stroke_join RF to_int r (join_normalize RF j) (section_new RF r x y) (section_new RF r y z)) -> ends s e -> near (join_reach r j) e.
  Proof.
    pose proof (reach_ge r j) as G. pose proof (reach_pos r j) as G0.
    assert (Nu : unit (normal_of u)) by auto using unit_normal. assert (Nv : unit (normal_of v)) by auto using unit_normal.
    assert (Mu : unit (neg (normal_of u))) by auto using unit_neg. assert (Mv : unit (neg (normal_of v))) by auto using unit_neg.
    assert (Top : forall s e, In s (join_top RF to_int (section_new RF r x y) (section_new RF r y z)) -> ends s e -> near (join_reach r j) e).
    { intros s0 e0. rewrite !section_real. fold u v. unfold join_top. cbn [s_btop s_atop]. apply near_add; apply near_off; auto. }
    assert (Bot : forall s e, In s (join_bot RF to_int (section_new RF r x y) (section_new RF r y z)) -> ends s e -> near (join_reach r j) e).
    { intros s0 e0. rewrite !section_real. fold u v. unfold join_bot. cbn [s_bbot s_abot]. apply near_add; apply near_off; auto. }
    rewrite normalize_real. destruct j as [|a|a].
    - cbn [stroke_join]. unfold bevel_join. intros H E. apply in_app_or in H as [H|H]; eauto.
    - cbn [stroke_join]. unfold miter_join. set (T := join_top RF to_int _ _) in *. set (B := join_bot RF to_int _ _) in *. clearbody T B. rewrite !section_real. fold u v.
      unfold miter_new. cbv zeta. cbn [m_limit m_len s_dir s_abot s_bbot s_btop s_atop].
      change (p_dot RF u v) with (dot u v). change (p_cross RF u v) with (cross u v). unfold lit.
      cbn [RF n_lt n_abs n_neg n_add n_sub n_mul to_f64 from_f64 d_cos d_mul d_max d_div d_tan d_lit f_xy f_x f_y fst snd]. rewrite q_1_2, !fixed_real.
      destruct (Rltb (Rabs _) _); [intros H E; apply in_app_or in H as [H|H]; eauto|].
      replace (/ 2 * miter_angle a) with (miter_angle a / 2) by lra. set (l := r / tan (miter_angle a / 2)).
      pose proof (miter_len a r l eq_refl) as Len.
      destruct (Rltb (dot u v) (- cos (miter_angle a))) eqn:Lim.
      + destruct (Rltb _ (cross u v)).
        * assert (P1 : near (join_reach r (MiterJoin RF a)) (to_int (fst (off y (neg (normal_of v)) r) - l * fst v, snd (off y (neg (normal_of v)) r) - l * snd v))).
          { apply near_dist; auto. rewrite <- Len. right. unfold dist2, off, neg, normal_of. cbn [fst snd]. unfold unit in Uv. nra. }
          assert (P2 : near (join_reach r (MiterJoin RF a)) (to_int (fst (off y (neg (normal_of u)) r) + l * fst u, snd (off y (neg (normal_of u)) r) + l * snd u))).
          { apply near_dist; auto. rewrite <- Len. right. unfold dist2, off, neg, normal_of. cbn [fst snd]. unfold unit in Uu. nra. }
          pose proof (near_off _ _ Mv G) as P3. pose proof (near_off _ _ Mu G) as P4.
          destruct (pt_eqb _ _); intros H E; [eauto|]. repeat (apply in_app_or in H as [H|H]; [eauto using near_push|]). eauto using near_push.
        * assert (P1 : near (join_reach r (MiterJoin RF a)) (to_int (fst (off y (normal_of u) r) + l * fst u, snd (off y (normal_of u) r) + l * snd u))).
          { apply near_dist; auto. rewrite <- Len. right. unfold dist2, off, normal_of. cbn [fst snd]. unfold unit in Uu. nra. }
          assert (P2 : near (join_reach r (MiterJoin RF a)) (to_int (fst (off y (normal_of v) r) - l * fst v, snd (off y (normal_of v) r) - l * snd v))).
          { apply near_dist; auto. rewrite <- Len. right. unfold dist2, off, normal_of. cbn [fst snd]. unfold unit in Uv. nra. }
          pose proof (near_off _ _ Nv G) as P3. pose proof (near_off _ _ Nu G) as P4.
          destruct (pt_eqb _ _); intros H E; [eauto|]. repeat (apply in_app_or in H as [H|H]; [eauto using near_push|]). eauto using near_push.
      + apply Rltb_false in Lim. pose proof (limit_gt a) as Lg.
        assert (Sharp : forall pa pb va vb k, unit va -> unit vb -> pa = off y (normal_of va) k -> pb = off y (normal_of vb) k -> k * k = r * r -> near (join_reach r (MiterJoin RF a)) (to_int pa) -> near (join_reach r (MiterJoin RF a)) (to_int pb) ->
          dot va vb = dot u v -> forall s e, In s (match sharp RF to_int pa pb va vb with Degenerate => [] | AB a b => [bold_ab b a] | AcB a c b => [bold_ab c a; bold_ab b c] end) -> ends s e -> near (join_reach r (MiterJoin RF a)) e).
        { intros pa pb va vb k Ua Ub Ea Eb Ek Na Nb Ed s0 e0. pose proof (sharp_spec RF to_int pa pb va vb) as Sp.
          destruct (sharp RF to_int pa pb va vb) as [|ia ib|ia ic ib] eqn:Es.
          - intros [].
          - destruct Sp as (-> & -> & _). intros [<-|[]] E. apply ends_bold in E as [->| ->]; auto.
          - destruct (sharp_point to_int y va vb pa pb k Ua Ub) with (a := ia) (cc := ic) (b := ib) as (p & Ep & Dp); auto.
            + rewrite Ea. unfold off, normal_of. cbn [fst snd]. f_equal; ring.
            + rewrite Eb. unfold off, normal_of. cbn [fst snd]. f_equal; ring.
            + change (-1 < dot va vb). lra.
            + assert (Nc : near (join_reach r (MiterJoin RF a)) ic).
              { rewrite Ep. apply near_dist; auto. change (fst va * fst vb + snd va * snd vb) with (dot va vb) in Dp. apply (miter_sharp a r (dot u v)); [lra|]. rewrite <- Ed, <- Ek. exact Dp. }
              destruct Sp as (-> & -> & _). intros [<-|[<-|[]]] E; apply ends_bold in E as [->| ->]; auto. }
        destruct (Rltb _ (cross u v)); intros H E; (apply in_app_or in H as [H|H]; [eauto|]); revert H E.
        * apply (Sharp _ _ _ _ (- r)); auto using near_off; try ring; try apply dot_comm; unfold off, neg, normal_of; cbn [fst snd]; f_equal; ring.
        * apply (Sharp _ _ _ _ r); auto using near_off.
    - intros H E. apply (sround_drawn to_int x y z r Nxy Nyz) in H. fold u v in H. destruct H as [(p & p' & (D1 & D2 & _) & ->)|[[_ ->]|[_ ->]]]; apply ends_bold in E as [->| ->]; auto using near_off.
      + exists p. split; auto. rewrite D1. exact G.
      + exists p'. split; auto. rewrite D2. exact G.
  Qed.

  Lemma outline_join_near j s e : In s (outline_join RF to_int r (join_normalize RF j) (osection_new RF r x y) (osection_new RF r y z)) -> ends s e -> near (join_reach r j) e.
  Proof.
    pose proof (reach_ge r j) as G. pose proof (reach_pos r j) as G0.
    assert (Nu : unit (normal_of u)) by auto using unit_normal. assert (Nv : unit (normal_of v)) by auto using unit_normal.
    assert (Weak : forall s e, In s (join_weak RF to_int (osection_new RF r x y) (osection_new RF r y z)) -> ends s e -> near (join_reach r j) e).
    { intros s0 e0. rewrite !osection_real. fold u v. unfold join_weak. cbn [os_btop os_atop]. cbv zeta. destruct (pt_eqb _ _); [intros []|]. intros [<-|[]] E. apply ends_weak in E as [->| ->]; auto using near_off. }
    rewrite normalize_real. destruct j as [|a|a].
    - cbn [outline_join]. eauto.
    - cbn [outline_join]. unfold omiter_join. set (W := join_weak RF to_int _ _) in *. clearbody W. rewrite !osection_real. fold u v.
      unfold omiter_new. cbv zeta. cbn [om_limit om_len om_expand os_dir os_b os_btop os_atop].
      change (p_dot RF u v) with (dot u v). change (p_cross RF u v) with (cross u v). unfold lit.
      cbn [RF n_lt n_le n_abs n_neg n_add n_sub n_mul to_f64 from_f64 d_cos d_mul d_max d_abs d_div d_tan d_lit f_xy f_x f_y fst snd]. rewrite q_1_2, !fixed_real.
      destruct (Bool.eqb _ _); [eauto|]. destruct (_ <? 4)%Z; [eauto|].
      replace (/ 2 * miter_angle a) with (miter_angle a / 2) by lra. set (l := Rabs r / tan (miter_angle a / 2)).
      pose proof (miter_len a (Rabs r) l eq_refl) as Len.
      assert (R2 : Rabs r * Rabs r = r * r) by (rewrite <- Rabs_mult; apply Rabs_pos_eq; nra).
      assert (Jr : join_reach (Rabs r) (MiterJoin RF a) = join_reach r (MiterJoin RF a)) by (unfold join_reach; rewrite Rabs_Rabsolu; reflexivity). rewrite Jr, R2 in Len.
      pose proof (near_off _ _ Nv G) as P3. pose proof (near_off _ _ Nu G) as P4.
      destruct (Rltb (dot u v) (- cos (miter_angle a))) eqn:Lim.
      + assert (P1 : near (join_reach r (MiterJoin RF a)) (to_int (fst (off y (normal_of u) r) + l * fst u, snd (off y (normal_of u) r) + l * snd u))).
        { apply near_dist; auto. rewrite <- Len. right. unfold dist2, off, normal_of. cbn [fst snd]. unfold unit in Uu. nra. }
        assert (P2 : near (join_reach r (MiterJoin RF a)) (to_int (fst (off y (normal_of v) r) - l * fst v, snd (off y (normal_of v) r) - l * snd v))).
        { apply near_dist; auto. rewrite <- Len. right. unfold dist2, off, normal_of. cbn [fst snd]. unfold unit in Uv. nra. }
        intros H E. repeat (apply in_app_or in H as [H|H]; [eauto using near_push|]). eauto using near_push.
      + apply Rltb_false in Lim. pose proof (limit_gt a) as Lg.
        pose proof (sharp_spec RF to_int (off y (normal_of u) r) (off y (normal_of v) r) u v) as Sp.
        destruct (sharp RF to_int (off y (normal_of u) r) (off y (normal_of v) r) u v) as [|ia ib|ia ic ib] eqn:Es.
        * intros [].
        * destruct Sp as (-> & -> & _). intros [<-|[]] E. apply ends_bold in E as [->| ->]; auto.
        * destruct (sharp_point to_int y u v (off y (normal_of u) r) (off y (normal_of v) r) r Uu Uv) with (a := ia) (cc := ic) (b := ib) as (p & Ep & Dp); auto.
          -- unfold off, normal_of. cbn [fst snd]. f_equal; ring.
          -- unfold off, normal_of. cbn [fst snd]. f_equal; ring.
          -- change (-1 < dot u v). lra.
          -- assert (Nc : near (join_reach r (MiterJoin RF a)) ic).
             { rewrite Ep. apply near_dist; auto. change (fst u * fst v + snd u * snd v) with (dot u v) in Dp. apply (miter_sharp a r (dot u v)); [lra|exact Dp]. }
             destruct Sp as (-> & -> & _). intros [<-|[<-|[]]] E; apply ends_bold in E as [->| ->]; auto.
    - intros H E. apply (oround_drawn to_int x y z r Nxy Nyz) in H. fold u v in H.
      assert (Et : e = fst (travel s) \/ e = snd (travel s)) by (unfold travel; destruct (osubj (sc s) =? 1)%Z; cbn [fst snd]; unfold ends in E; tauto).
      destruct H as [(p & p' & (D1 & D2 & _) & T)|[_ T]]; rewrite T in Et; cbn [fst snd] in Et; destruct Et as [->| ->]; auto using near_off.
      + exists p. split; auto. rewrite D1. exact G.
      + exists p'. split; auto. rewrite D2. exact G.
  Qed.
End Reach.

(** ** Caps *)
Definition size (p : R * R) : R := dist p (0, 0).
Definition cap_reach (r : R) (c : line_cap RF) : R :=
  match c with
  | Butt _ | RoundCap _ _ => r
  | Square _ => sqrt 2 * r
  | Custom _ points => fold_right (fun p m => Rmax (size p * r) m) r points
  end.
Lemma cap_reach_ge r c : 0 <= r -> r <= cap_reach r c.
Proof.
  intro H. destruct c as [| | |l]; cbn; try lra.
  - assert (1 <= sqrt 2) by (rewrite <- sqrt_1; apply sqrt_le_1_alt; lra). nra.
  - induction l as [|p l IH]; cbn [fold_right]; [lra|]. eapply Rle_trans; [exact IH|apply Rmax_r].
Qed.
Lemma size_scale p r : 0 <= r -> size (p_scale RF p r) = size p * r.
Proof.
  intro H. unfold size, dist, dist2. cbn [RF p_scale fst snd]. rewrite !Rminus_0_r.
  replace (fst p * r * (fst p * r) + snd p * r * (snd p * r)) with ((fst p * fst p + snd p * snd p) * (r * r)) by ring.
  rewrite sqrt_mult_alt by nra. rewrite sqrt_square; auto.
Qed.
Lemma size_unit v : unit v -> size v = 1.
Proof. intro U. apply dist_eq; [lra|]. unfold dist2. cbn [fst snd]. unfold unit in U. lra. Qed.
Lemma round_loop_size th r : 0 <= r -> forall k v p, unit v -> In p (round_loop RF k (rot_angle RF th) v r) -> size p = r.
Proof.
  intro H. induction k as [|k IH]; intros v p U I; [destruct I|]. cbn [round_loop] in I. cbv zeta in I. rewrite rotate_real in I. pose proof (rotv_unit th v U) as U'.
  destruct I as [<-|I]; [|eapply IH; eauto]. rewrite size_scale, size_unit by auto. lra.
Qed.
Lemma cap_points_size r c : 0 <= r -> forall p, In p (opt_points RF (cap_points RF (cap_normalize RF c) r)) -> size p <= cap_reach r c.
Proof.
  intros H p I. destruct c as [|a| |l]; cbn [cap_normalize cap_points opt_points] in I.
  - destruct I.
  - right. unfold round_points in I. eapply round_loop_size; [auto| |exact I]. unfold unit, lit. cbn [RF f_xy from_f64 d_lit fst snd]. rewrite q_0, q_m1. lra.
  - right. unfold square_points in I. cbn [RF f_xy n_neg] in I. cbn [cap_reach].
    assert (Sq : sqrt 2 * r * (sqrt 2 * r) = 2 * (r * r)) by (replace (sqrt 2 * r * (sqrt 2 * r)) with (sqrt 2 * sqrt 2 * (r * r)) by ring; rewrite sqrt_sqrt by lra; ring).
    assert (P : 0 <= sqrt 2 * r) by (apply Rmult_le_pos; auto using sqrt_pos).
    destruct I as [<-|[<-|[]]]; apply dist_eq; auto; rewrite Sq; unfold dist2; cbn [fst snd]; ring.
  - cbn [cap_reach]. induction l as [|q l IH]; [destruct I|]. cbn [fold_right]. cbn [map] in I. destruct I as [<-|I]; [rewrite size_scale by auto; apply Rmax_l|].
    eapply Rle_trans; [apply IH; exact I|apply Rmax_r].
Qed.
Lemma cap_loop_near to_int d c reach last e : unit d -> forall points a s, (forall p, In p points -> size p <= reach) -> near_pt to_int c reach a -> near_pt to_int c reach last ->
  In s (cap_loop RF to_int (rot_vector RF d) c points a last) -> ends s e -> near_pt to_int c reach e.
Proof.
  intro U. induction points as [|p points IH]; intros a s P A L H E; cbn [cap_loop] in H.
  - destruct H as [<-|[]]. apply ends_bold in E as [->| ->]; auto.
  - cbv zeta in H. assert (B : near_pt to_int c reach (to_int (p_add RF (rotate RF (rot_vector RF d) p) c))).
    { eexists. split; [reflexivity|]. replace (dist (p_add RF (rotate RF (rot_vector RF d) p) c) c) with (size p); [apply P; simpl; auto|].
      unfold size, dist, dist2, rotate, rot_vector, rot_new. cbn [RF p_add f_xy f_x f_y n_add n_mul n_neg r_ax r_ay r_bx r_by fst snd]. f_equal. unfold unit in U.
      replace ((fst d * fst p + - snd d * snd p + fst c - fst c) * (fst d * fst p + - snd d * snd p + fst c - fst c) +
        (snd d * fst p + fst d * snd p + snd c - snd c) * (snd d * fst p + fst d * snd p + snd c - snd c)) with ((fst d * fst d + snd d * snd d) * (fst p * fst p + snd p * snd p)) by ring.
      rewrite U. ring. }
    destruct H as [<-|H]; [apply ends_bold in E as [->| ->]; auto|]. eapply IH; eauto. intros q Iq. apply P. simpl; auto.
Qed.

(** ** Whole strokes and offsets *)
Definition stroke_radius (style : stroke_style RF) : R := Rmax (st_width RF style) 0 / 2.
Lemma stroke_radius_pos style : 0 <= stroke_radius style.
Proof. unfold stroke_radius. pose proof (Rmax_r (st_width RF style) 0). lra. Qed.
Definition stroke_reach (style : stroke_style RF) : R :=
  Rmax (join_reach (stroke_radius style) (st_join RF style)) (Rmax (cap_reach (stroke_radius style) (st_start RF style)) (cap_reach (stroke_radius style) (st_end RF style))).
Lemma builder_real to_int style : stroke_builder_new RF to_int style = SB RF (stroke_radius style) (stroke_join RF to_int (stroke_radius style) (join_normalize RF (st_join RF style)))
  (cap_points RF (cap_normalize RF (st_start RF style)) (stroke_radius style)) (cap_points RF (cap_normalize RF (st_end RF style)) (stroke_radius style)).
Proof.
  unfold stroke_builder_new. cbn [RF from_f64 to_f64 d_mul d_max d_lit]. rewrite q_1_2, q_0. replace (/ 2 * Rmax (st_width RF style) 0) with (stroke_radius style) by (unfold stroke_radius; lra). reflexivity.
Qed.
Definition near_path (to_int : R * R -> pt) (path : list (R * R)) (d : R) (e : pt) : Prop := exists p v, In v path /\ e = to_int p /\ dist p v <= d.
Lemma near_pt_path to_int path v d d' e : In v path -> near_pt to_int v d e -> d <= d' -> near_path to_int path d' e.
Proof. intros I (p & E & D) L. exists p, v. split; auto. split; auto. lra. Qed.
(** points of a path that are equal on the grid are equal *)
Definition faithful (to_int : R * R -> pt) (path : list (R * R)) : Prop := forall p q, In p path -> In q path -> to_int p = to_int q -> p = q.
Lemma outline_near to_int r j path segs : faithful to_int path -> outline_segments RF to_int r (join_normalize RF j) path = Some segs ->
  forall s e, In s segs -> ends s e -> near_path to_int path (join_reach r j) e.
Proof.
  intros Fa H s e I E. unfold outline_segments in H. rewrite outline_ring in H. injection H as <-. apply ring_in in I as [(f & If & I)|(f & g & Fg & I)].
  - apply ring_sides_in in If as (A & B & D). assert (N : fst f <> snd f) by congruence. unfold o_add_section in I. destruct I as [<-|[]].
    rewrite osection_real in E. cbn [os_atop os_btop] in E. pose proof (unit_normal _ (dir_unit _ _ N)) as U.
    apply ends_bold in E as [->| ->]; [apply (near_pt_path _ _ (fst f) (Rabs r))|apply (near_pt_path _ _ (snd f) (Rabs r))]; auto using near_off, Rle_refl, reach_ge.
  - pose proof (ring_chain RF to_int path f g Fa Fg) as Ch.
    assert (If : In f (ring_sides RF to_int path) /\ In g (ring_sides RF to_int path)).
    { destruct Fg as [(l & m & ->)|(q & -> & ->)].
      - split; apply in_or_app; simpl; auto.
      - split; [|simpl; auto]. destruct q as [|h q]; [simpl; auto|]. right. destruct (exists_last (l := h :: q) ltac:(discriminate)) as (l & w & ->). rewrite last_last. apply in_or_app. simpl; auto. }
    destruct If as [If Ig]. apply ring_sides_in in If as (A & B & D). apply ring_sides_in in Ig as (A' & B' & D'). assert (N : fst f <> snd f) by congruence. assert (N' : fst g <> snd g) by congruence.
    clear Fg. destruct f as [x y], g as [y' z]. cbn [fst snd] in *. subst y'. apply (near_pt_path _ _ y (join_reach r j)); auto using Rle_refl. eapply outline_join_near; [exact N|exact N'|exact I|exact E].
Qed.
Lemma stroke_near to_int style closed path segs : (closed = true -> faithful to_int path) -> stroke_build RF to_int (stroke_builder_new RF to_int style) closed path = Some segs ->
  forall s e, In s segs -> ends s e -> near_path to_int path (stroke_reach style) e.
Proof.
  intros Fa H s e I E. rewrite builder_real in H. set (r := stroke_radius style) in *. pose proof (stroke_radius_pos style) as Pr. fold r in Pr.
  assert (Lj : join_reach r (st_join RF style) <= stroke_reach style) by apply Rmax_l.
  assert (Lr : Rabs r <= stroke_reach style) by (eapply Rle_trans; [apply (reach_ge r (st_join RF style))|exact Lj]).
  assert (Side : forall f, In (fst f) path -> In (snd f) path -> fst f <> snd f -> In s (add_section RF to_int (section_new RF r (fst f) (snd f))) -> near_path to_int path (stroke_reach style) e).
  { intros f A B N J. rewrite section_real in J. unfold add_section in J. cbn [s_atop s_btop s_abot s_bbot] in J. pose proof (unit_normal _ (dir_unit _ _ N)) as U. pose proof (unit_neg _ U) as U'.
    destruct J as [<-|[<-|[]]]; apply ends_bold in E as [->| ->];
      (apply (near_pt_path _ _ (fst f) (Rabs r)); [auto|apply near_off; auto using Rle_refl|auto]) || (apply (near_pt_path _ _ (snd f) (Rabs r)); [auto|apply near_off; auto using Rle_refl|auto]). }
  assert (Corner : forall f g, In (snd f) path -> fst f <> snd f -> fst g <> snd g -> snd f = fst g -> In s (stroke_join RF to_int r (join_normalize RF (st_join RF style)) (section_new RF r (fst f) (snd f)) (section_new RF r (fst g) (snd g))) ->
    near_path to_int path (stroke_reach style) e).
  { intros f g B N N' Ch J. rewrite <- Ch in J, N'. apply (near_pt_path _ _ (snd f) (join_reach r (st_join RF style))); auto. eapply stroke_join_near; [exact N|exact N'|exact J|exact E]. }
  destruct closed.
  - specialize (Fa eq_refl). cbn [stroke_build] in H. rewrite closed_ring in H. cbn [sb_radius sb_join] in H. injection H as <-. apply ring_in in I as [(f & If & I)|(f & g & Fg & I)].
    + apply ring_sides_in in If as (A & B & D). apply (Side f); auto. exact (fun Q => D (f_equal to_int Q)).
    + pose proof (ring_chain RF to_int path f g Fa Fg) as Ch.
      assert (If : In f (ring_sides RF to_int path) /\ In g (ring_sides RF to_int path)).
      { destruct Fg as [(l & m & ->)|(q & -> & ->)].
        - split; apply in_or_app; simpl; auto.
        - split; [|simpl; auto]. destruct q as [|h q]; [simpl; auto|]. right. destruct (exists_last (l := h :: q) ltac:(discriminate)) as (l & w & ->). rewrite last_last. apply in_or_app. simpl; auto. }
      destruct If as [If Ig]. apply ring_sides_in in If as (A & B & D). apply ring_sides_in in Ig as (A' & B' & D'). apply (Corner f g); auto; [exact (fun Q => D (f_equal to_int Q))|exact (fun Q => D' (f_equal to_int Q))].
  - cbn [stroke_build] in H. destruct path as [|p0 [|p1 rest]]; [discriminate|discriminate|]. rewrite open_strip in H by discriminate. cbn [sb_radius sb_join sb_start sb_end] in H.
    set (sides := path_sides RF to_int p0 (p1 :: rest)) in *. apply (f_equal (fun o => match o with Some l => l | None => segs end)) in H. cbv beta iota in H. rewrite <- H in I. clear H segs.
    assert (Sd : forall f, In f sides -> In (fst f) (p0 :: p1 :: rest) /\ In (snd f) (p0 :: p1 :: rest) /\ fst f <> snd f).
    { intros f If. apply sides_in in If as (A & B & D). split; auto. split; [right; auto|exact (fun Q => D (f_equal to_int Q))]. }
    destruct sides as [|f0 r0] eqn:Es; [destruct I|]. apply in_app_or in I as [I|I]; [|apply in_app_or in I as [I|I]].
    + destruct (Sd f0 (or_introl eq_refl)) as (A & B & N). pose proof (dir_unit _ _ N) as U. rewrite section_real in I. unfold add_to_start in I. cbn [s_dir s_a s_atop s_abot] in I.
      pose proof (unit_normal _ U) as Un. apply (near_pt_path _ _ (fst f0) (cap_reach r (st_start RF style))); auto.
      * eapply (cap_loop_near to_int (neg (dir (fst f0) (snd f0)))); [apply unit_neg; auto| | | |exact I|exact E].
        -- apply cap_points_size; auto.
        -- apply near_off; auto. rewrite Rabs_pos_eq by auto. apply cap_reach_ge; auto.
        -- apply near_off; auto using unit_neg. rewrite Rabs_pos_eq by auto. apply cap_reach_ge; auto.
      * eapply Rle_trans; [|apply Rmax_r]. apply Rmax_l.
    + apply strip_in in I as [(f & If & I)|(f & g & Fg & I)].
      * destruct (Sd f If) as (A & B & N). apply (Side f); auto.
      * assert (Ch : snd f = fst g) by (rewrite <- Es in Fg; eapply sides_chain; exact Fg).
        destruct Fg as (l & m & El). destruct (Sd f) as (A & B & N); [rewrite El; apply in_or_app; simpl; auto|]. destruct (Sd g) as (A' & B' & N'); [rewrite El; apply in_or_app; simpl; auto|]. apply (Corner f g); auto.
    + assert (If : In (last r0 f0) (f0 :: r0)). { destruct r0 as [|h q]; [simpl; auto|]. right. destruct (exists_last (l := h :: q) ltac:(discriminate)) as (l & w & ->). rewrite last_last. apply in_or_app. simpl; auto. }
      set (f := last r0 f0) in *. destruct (Sd f If) as (A & B & N). pose proof (dir_unit _ _ N) as U. rewrite section_real in I. unfold add_to_end in I. cbn [s_dir s_b s_btop s_bbot] in I.
      pose proof (unit_normal _ U) as Un. apply (near_pt_path _ _ (snd f) (cap_reach r (st_end RF style))); auto.
      * eapply (cap_loop_near to_int (dir (fst f) (snd f))); [auto| | | |exact I|exact E].
        -- apply cap_points_size; auto.
        -- apply near_off; auto using unit_neg. rewrite Rabs_pos_eq by auto. apply cap_reach_ge; auto.
        -- apply near_off; auto. rewrite Rabs_pos_eq by auto. apply cap_reach_ge; auto.
      * eapply Rle_trans; [|apply Rmax_r]. apply Rmax_r.
Qed.
