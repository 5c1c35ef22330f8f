(** * From extracted contours to shapes, for any region made of contours that do not touch. *)
From Verif Require Import Base Spec QLib SegmProofs PlanarGeo PlanarSum FillProofs FillCorrect ModelSegm ModelFill ModelFilter CoreResults ModelGraph GraphProofs ModelExtract ExtractProofs
  Rotation NextLink MoveLemma SectorLemma Sides WalkSides Orient Properties04 ModelBind BindProofs BindSweep Thin Nest Properties05 ContourResults Fewer Masked Kept.
From Coq Require Import Permutation.
Open Scope Z_scope.

Section Tail.
  Variable g : graph.
  Hypothesis P : links_planar (g_links g).
  Variable kR : nat -> Z.
  Variable visI : list bool.
  Hypothesis KR : forall i, valid g i -> if not_visited visI i then kR i = 1 \/ kR i = -1 else kR i = 0.
  Hypothesis BR : balanced (ch (ges g) (kx g kR)).
  Hypothesis WR : forall q, wind (ch (ges g) (kx g kR)) q = 0 \/ wind (ch (ges g) (kx g kR)) q = 1.
  Variable clean : bool -> list pt -> list pt * bool.
  Variables clockwise simplify : bool.
  Variable ps : list piece.
  Hypothesis St : steps g kR visI clean clockwise simplify visI ps.
  Hypothesis Th : forall i p, at_ ps i p -> thinned (p_contour p) (p_raw p) /\ (p_mod p = false -> p_contour p = p_raw p).
  Hypothesis Tw : forall v x y z, valid g x -> valid g y -> valid g z -> not_visited visI x = true -> not_visited visI y = true -> not_visited visI z = true ->
    (v = sa (seg g x) \/ v = sb (seg g x)) -> (v = sa (seg g y) \/ v = sb (seg g y)) -> (v = sa (seg g z) \/ v = sb (seg g z)) -> x = y \/ y = z \/ x = z.
  Notation W q := (wind (ch (ges g) (kx g kR)) q).

  Lemma piece_turns i p : at_ ps i p -> turns (piece_dir clockwise (p_hole p)) (p_raw p) /\ p_valid p = true.
  Proof.
    intro Hp. destruct (steps_at _ _ _ _ _ _ _ ps St i p Hp) as (vi & vi' & t & Sf & _). split; [|apply (sf_valid _ _ _ _ _ _ _ _ _ _ Sf)].
    pose proof (sf_cw _ _ _ _ _ _ _ _ _ _ Sf) as Cw. assert (E : piece_dir clockwise (p_hole p) = main_dir clockwise * sgn p) by (unfold piece_dir, sgn; destruct (p_hole p); lia).
    split.
    - intro q. rewrite Cw, E. destruct (sf_wc _ _ _ _ _ _ _ _ _ _ Sf q) as [-> | ->]; auto. left; lia.
    - destruct (sf_ex _ _ _ _ _ _ _ _ _ _ Sf) as (q & X). exists q. rewrite Cw, X, E. auto.
  Qed.
  Lemma contours_ok : (forall p q, In p ps -> contour_wind (p_contour p) q = contour_wind (p_raw p) q) /\
    forall i p, at_ ps i p -> (3 <= length (p_raw p))%nat /\ (3 <= length (p_contour p))%nat /\ thinned (p_contour p) (p_raw p) /\ (p_mod p = false -> p_contour p = p_raw p).
  Proof.
    assert (Cw : forall p q, In p ps -> contour_wind (p_contour p) q = contour_wind (p_raw p) q).
    { intros p q I. apply In_nth_error in I as (i & Hi). apply thinned_wind. apply (Th i p Hi). }
    split; auto. intros i p Hi. destruct (piece_turns i p Hi) as [[_ (q & E)] _].
    assert (Nz : contour_wind (p_raw p) q <> 0) by (rewrite E; unfold piece_dir, main_dir; destruct (p_hole p), clockwise; discriminate).
    split; [|split; [|apply (Th i p Hi)]].
    - destruct (le_lt_dec 3 (length (p_raw p))) as [|L]; auto. exfalso. apply Nz. apply short_contour; auto.
    - destruct (le_lt_dec 3 (length (p_contour p))) as [|L]; auto. exfalso. apply Nz. rewrite <- (Cw p q); [apply short_contour; auto|eapply nth_error_In; eauto].
  Qed.

  Theorem kept_shapes dbg : exists shapes, join_pieces clockwise ps dbg = Some shapes /\ grouped (outer_contours ps) (hole_contours ps) shapes /\
    nz_shapes_ok (sign_of clockwise) (fun q => negb (W q =? 0)) shapes.
  Proof.
    destruct contours_ok as [Con Th'].
    assert (On' : clockwise = true -> forall i p, at_ ps i p -> p_hole p = true -> second_once (p_raw p)).
    { intros Cw i p Hi Hh. pose proof (untouched_once g kR visI KR clean clockwise simplify ps St i p Tw Hi (proj1 (Th' i p Hi))) as N.
      intros a k E1 E2. rewrite NoDup_nth_error in N. apply N; [apply nth_error_Some; congruence|congruence]. }
    destruct (bind_thinned g P kR visI KR BR WR clean clockwise simplify ps St Th' On' (untouched_planar g P kR visI KR clean clockwise simplify ps St Th' Tw) dbg) as (out & par & Jn & As & Bel).
    assert (Cw' : forall i p q, at_ ps i p -> contour_wind (p_contour p) q = contour_wind (p_raw p) q) by (intros i p q Hi; apply Con; eapply nth_error_In; eauto).
    assert (Tn' : forall p, In p ps -> turns (piece_dir clockwise (p_hole p)) (p_contour p)).
    { intros p I. pose proof I as I0. apply In_nth_error in I0 as (i & Hi). destruct (piece_turns i p Hi) as [[T1 (q & T2)] _]. split; [intro q'; rewrite (Con p q' I); auto|exists q; rewrite (Con p q I); auto]. }
    assert (Vl : forall p, In p ps -> p_valid p = true) by (intros p I; apply In_nth_error in I as (i & Hi); apply (piece_turns i p Hi)).
    exists out. split; [exact Jn|]. split; [eapply assembled_grouped; eauto|].
    assert (Ol : forall c, In c (outer_contours ps) -> turns (sign_of clockwise) c).
    { intros c I. apply in_map_iff in I as (p & <- & I). apply filter_In in I as [I B]. apply andb_true_iff in B as [_ B]. apply negb_true_iff in B.
      pose proof (Tn' p I) as T. rewrite B in T. exact T. }
    assert (Hl : forall c, In c (hole_contours ps) -> turns (- sign_of clockwise) c).
    { intros c I. apply in_map_iff in I as (p & <- & I). apply filter_In in I as [I B]. apply andb_true_iff in B as [_ B].
      pose proof (Tn' p I) as T. rewrite B in T. exact T. }
    assert (Sd : sign_of clockwise <> 0) by (destruct clockwise; discriminate).
    pose proof (assembled_grouped _ _ _ _ As) as [Gh Gt].
    assert (Sw : forall k sh q, nth_error out k = Some sh -> contours_wind sh q = 0 \/ contours_wind sh q = sign_of clockwise).
    { intros k sh q E. destruct (nest_shapes g P kR visI KR clean clockwise simplify ps St Cw' out par As Bel k sh E) as (o & po & hs & _ & _ & X & _).
      destruct (X q) as [[_ Y]|[_ Y]]; auto. }
    assert (Dj : forall k k' sh sh' q, k <> k' -> nth_error out k = Some sh -> nth_error out k' = Some sh' -> ~ (nz_at sh q /\ nz_at sh' q)).
    { intros k k' sh sh' q N E E' [C1 C2]. apply N.
      apply (nest_disjoint g P kR visI KR clean clockwise simplify ps St Cw' out par k k' sh sh' q As Bel E E' C1 C2). }
    split; [|split; auto].
    - apply Forall_forall. intros sh I. pose proof I as I0. apply In_nth_error in I0 as (k & E).
      destruct (nest_shapes g P kR visI KR clean clockwise simplify ps St Cw' out par As Bel k sh E) as (o & po & hs & Es & _ & X & En & Di).
      exists (p_contour po), hs. split; auto. split; [|split; [|split; [|split]]].
      + apply Ol. assert (Is : In (Some (p_contour po)) (map Some (outer_contours ps))) by (rewrite <- Gh; apply in_map_iff; exists sh; split; [rewrite Es; auto|auto]).
        apply in_map_iff in Is as (c & Ec & Ic). injection Ec as <-. auto.
      + apply Forall_forall. intros h Ih. apply Hl. apply (Permutation_in _ Gt). apply in_concat. exists hs. split; auto. apply in_map_iff. exists sh. split; [rewrite Es; auto|auto].
      + intros h q Ih N. unfold encloses in *. rewrite (En h q Ih N). exact Sd.
      + intros a b h h' q Nab Ha Hb [N1 N2]. apply N2. apply (Di a b h h' q); auto.
      + intro q. apply (Sw k); auto.
    - intro q.
      assert (Tot : zsum (fun sh => contours_wind sh q) out = sign_of clockwise * W q).
      { transitivity (contours_wind (concat out) q).
        - unfold contours_wind. clear. induction out as [|s l IH]; auto. cbn [concat]. rewrite zsum_cons, zsum_app, IH. auto.
        - rewrite (total g P kR visI KR clean clockwise simplify ps St q), <- zsum_mult. unfold contours_wind. rewrite (zsum_perm _ _ _ (assembled_all _ _ _ _ As)), zsum_app.
          unfold outer_contours, hole_contours. rewrite !zsum_map, !zsum_filter, <- zsum_plus. apply zsum_ext. intros p I. rewrite (Vl p I). cbn [andb].
          transitivity (contour_wind (p_contour p) q); [destruct (p_hole p); cbn [negb]; lia|].
          apply In_nth_error in I as (i & Hi). apply (contour_C g kR visI clean clockwise simplify ps St Cw' i p q Hi). }
      rewrite negb_true_iff, Z.eqb_neq. split.
      + intros (sh & I & Cv) ER. apply In_nth_error in I as (k & E). rewrite ER, Z.mul_0_r in Tot.
        apply nth_error_split in E as (l1 & l2 & -> & Lk). rewrite zsum_app, zsum_cons in Tot.
        assert (Z1 : forall l, (forall s, In s l -> exists k', k' <> k /\ nth_error (l1 ++ sh :: l2) k' = Some s) -> zsum (fun sh => contours_wind sh q) l = 0).
        { intros l Hl'. apply zsum_zero. intros s Is. destruct (Hl' s Is) as (k' & Nk & Ek). destruct (Z.eq_dec (contours_wind s q) 0); auto. exfalso.
          apply (Dj k' k s sh q); auto. rewrite nth_error_app2 by lia. rewrite Lk, Nat.sub_diag. auto. }
        rewrite (Z1 l1), (Z1 l2) in Tot.
        * apply Cv. lia.
        * intros s Is. apply In_nth_error in Is as (n & En). exists (S k + n)%nat. split; [lia|]. rewrite nth_error_app2 by lia. replace (S k + n - length l1)%nat with (S n) by lia. auto.
        * intros s Is. apply In_nth_error in Is as (n & En). assert (n < length l1)%nat by (apply nth_error_Some; congruence). exists n. split; [lia|]. rewrite nth_error_app1; auto.
      + intro ER. assert (Nt : zsum (fun sh => contours_wind sh q) out <> 0) by (rewrite Tot; lia).
        clear - Nt. induction out as [|s l IH]; [rewrite zsum_nil in Nt; congruence|]. rewrite zsum_cons in Nt. destruct (Z.eq_dec (contours_wind s q) 0) as [Z0|N].
        * destruct IH as (sh & I & Cv); [lia|]. exists sh. split; [right; auto|auto].
        * exists s. split; [left; auto|auto].
  Qed.
End Tail.
