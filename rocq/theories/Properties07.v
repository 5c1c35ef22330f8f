(** * Property theorems, part 7: clipping lines by shapes (C26, C27).

    [moves items]: the directed lines that were added (paths: consecutive points; closed
    string contours: also from the last to the first point).  [shape_contours items]: the
    contours of the shapes.  [runs_along e m]: the move [e] lies on the move [m] and has its
    direction.  [steps path]: the moves of an output path. *)
From Verif Require Import Base Spec QLib ModelSegm SegmProofs MergeProofs PlanarGeo PlanarSum ModelFill ModelFilter FillProofs FillCorrect
  ModelCross CrossProofs CrossPoint MarksProofs CoreResults Properties01 ModelSplit SplitProofs SplitPlanar SplitPass BinsProofs SplitApply SplitLoop SplitFlags
  ModelFrag ModelOverlay OverlayProofs FragProofs GridCover Properties02 ModelGraph GraphProofs Properties03 ModelString StringProofs StringResults StringMain.
Open Scope Z_scope.

(** ** Specification *)
(** what [ClipRule] keeps, given whether the two sides of a piece are inside the shapes *)
Definition clip_keeps (cr : ClipRule) (above below : bool) : bool :=
  let kept := if cr_boundary cr then above || below else above && below in
  if cr_invert cr then negb kept else kept.
(** at every inner point of the piece [e] the rule says [keep] *)
Definition piece_kept (fr : FillRule) (cr : ClipRule) (w : qpt -> Z) (e : pt * pt) (keep : bool) : Prop :=
  forall q, inside_seg (XS (fst e) (snd e)) q ->
    near (fun d => clip_keeps cr (inside fr (w (top_side (XS (fst e) (snd e)) q d))) (inside fr (w (bottom_side (XS (fst e) (snd e)) q d))) = keep).

Lemma included_keeps cr st sb bk fw : clip_included cr (string_fill st sb bk fw) = (bk || fw) && clip_keeps cr st sb.
Proof. destruct cr as [[] []], st, sb, bk, fw; reflexivity. Qed.
Lemma side_swap a b q d : top_side (XS a b) q d = top_side (XS b a) q d /\ bottom_side (XS a b) q d = bottom_side (XS b a) q d.
Proof. unfold top_side, bottom_side. simpl. rewrite (Z.eqb_sym (px a)). auto. Qed.
Lemma kept_swap fr cr w a b keep : piece_kept fr cr w (a, b) keep -> piece_kept fr cr w (b, a) keep.
Proof.
  intros H q Hq. eapply near_mono; [|apply (H q); apply inside_swap; auto]. simpl. intros d D E. cbv beta in *.
  destruct (side_swap b a q d) as [-> ->]. exact E.
Qed.

(** ** C26, walking a graph: every direction of every kept link is used exactly once, for every
    list of links (sorted by start, as the builder produces them) and every order in which the
    unstable sort may leave the link ends. *)
Theorem C26_walk links ends :
  StronglySorted (fun l m => pt_leb (l_a l) (l_a m) = true) links ->
  Forall (fun l => pt_lt (l_a l) (l_b l)) links ->
  ends_ok links ends ->
  exists g out, string_graph links ends = Some g /\ into_clip_string_lines g = Some out /\
    Forall (fun path => (2 <= length path)%nat) out /\
    Permutation (flat_map steps out)
      (flat_map (fun l => (if N.testbit (l_fill l) 2 then [(l_a l, l_b l)] else []) ++ (if N.testbit (l_fill l) 3 then [(l_b l, l_a l)] else [])) links).
Proof.
  intros S W E. destruct (clip_lines_spec links ends S W E) as (g & out & A & B & C & D). exists g, out. auto.
Qed.

Section WithContracts.
  Variable layout_new : Z -> Z -> nat -> option (Z -> nat).
  Hypothesis Lay : layout_ok layout_new.
  Variable query : list (nat * xseg) -> Z * Z -> Z -> list (nat * xseg).
  Hypothesis Qry : query_ok query.
  Variable tree_new : Z * Z -> bool.
  Variable end_order : list link -> list (nat * pt).
  Hypothesis Ends : forall links, ends_ok links (end_order links).
  Notation splitI fuel solver items := (split_segments layout_new query tree_new fuel solver (string_segments items)).
  Notation merged items := (sort_merge (string_segments items)).
  Notation clip_lines := (clip_string_lines layout_new query tree_new end_order).

  (** the lines of a planar string arrangement *)
  Lemma lines_of_arr fr cr arr : inv arr -> planar (map sx arr) -> balanced (chain_of ssubj arr) ->
    exists g out, let links := build_links (clip_included cr) arr (ModelFill.fill_string fr arr) in
      string_graph links (end_order links) = Some g /\ into_clip_string_lines g = Some out /\
      Forall (fun path => (2 <= length path)%nat) out /\ NoDup (flat_map steps out) /\
      (forall e, In e (flat_map steps out) -> exists s, In s arr /\ In e (piece_dirs s)) /\
      (forall s e, In s arr -> In e (piece_dirs s) -> exists keep,
         piece_kept fr cr (wind (chain_of ssubj arr)) e keep /\ (In e (flat_map steps out) <-> keep = true)).
  Proof.
    intros I P B. set (links := build_links _ _ _).
    assert (Wf := inv_wf _ I). assert (Sr := inv_sorted _ I). assert (Ok : Forall (fun s => (sclip (sc s) < 4)%N) arr) by apply (inv_ok _ I).
    destruct (string_links_sorted arr Wf Sr P B Ok (clip_included cr) fr) as (L1 & L2 & L3). fold links in L1, L2, L3.
    destruct (clip_lines_spec links (end_order links) L1 L2 (Ends links)) as (g & out & H1 & H2 & H3 & H4).
    exists g, out. cbv zeta. split; auto. split; auto. split; auto.
    assert (ND : NoDup (flat_map steps out)).
    { eapply Permutation_NoDup; [apply Permutation_sym; exact H3|]. apply left_dirs_nodup; auto. }
    split; auto.
    assert (Key : forall e, In e (flat_map steps out) <-> exists s, In s arr /\ In e (piece_dirs s) /\
       clip_keeps cr (inside fr (botsum bool vals (map as_bool arr) true (as_bool s) + ssubj (sc s)))
                     (inside fr (botsum bool vals (map as_bool arr) true (as_bool s))) = true).
    { intro e. assert (E1 : In e (flat_map steps out) <-> In e (left_dirs links)).
      { split; intro H; [eapply Permutation_in; [exact H3|]; auto|eapply Permutation_in; [apply Permutation_sym; exact H3|]; auto]. }
      rewrite E1, left_dirs_in. unfold links. split.
      - intros (l & Il & H). apply string_links_in in Il as (s & Is & Inc & ->); auto. cbn [l_a l_b l_fill] in H.
        exists s. split; auto. rewrite included_keeps in Inc. apply andb_true_iff in Inc as [_ K]. split; auto.
        destruct (bits_of (inside fr (botsum bool vals (map as_bool arr) true (as_bool s) + ssubj (sc s)))
            (inside fr (botsum bool vals (map as_bool arr) true (as_bool s))) (N.testbit (sclip (sc s)) 0) (N.testbit (sclip (sc s)) 1)) as (_ & _ & B2 & B3).
        rewrite B2, B3 in H. unfold piece_dirs, backb, forwb. apply in_or_app. destruct H as [[-> ->]|[-> ->]]; simpl; auto.
      - intros (s & Is & He & K). eexists. split; [apply string_links_in; auto; exists s; split; auto; cbv zeta; split; [|reflexivity]|].
        + rewrite included_keeps, K. unfold piece_dirs, backb, forwb in He. apply in_app_or in He as [He|He].
          * destruct (N.testbit (sclip (sc s)) 0); [reflexivity|destruct He].
          * destruct (N.testbit (sclip (sc s)) 1); [apply andb_true_iff; split; auto; apply orb_true_r|destruct He].
        + cbn [l_a l_b l_fill].
          destruct (bits_of (inside fr (botsum bool vals (map as_bool arr) true (as_bool s) + ssubj (sc s)))
            (inside fr (botsum bool vals (map as_bool arr) true (as_bool s))) (N.testbit (sclip (sc s)) 0) (N.testbit (sclip (sc s)) 1)) as (_ & _ & B2 & B3).
          rewrite B2, B3. unfold piece_dirs, backb, forwb in He. apply in_app_or in He as [He|He].
          * left. destruct (N.testbit (sclip (sc s)) 0); [destruct He as [<-|[]]; auto|destruct He].
          * right. destruct (N.testbit (sclip (sc s)) 1); [destruct He as [<-|[]]; auto|destruct He]. }
    split.
    - intros e He. apply Key in He as (s & Is & Hd & _). eauto.
    - intros s e Is He. exists (clip_keeps cr (inside fr (botsum bool vals (map as_bool arr) true (as_bool s) + ssubj (sc s)))
                     (inside fr (botsum bool vals (map as_bool arr) true (as_bool s)))).
      split.
      + assert (K : piece_kept fr cr (wind (chain_of ssubj arr)) (sa (sx s), sb (sx s)) (clip_keeps cr (inside fr (botsum bool vals (map as_bool arr) true (as_bool s) + ssubj (sc s)))
                     (inside fr (botsum bool vals (map as_bool arr) true (as_bool s))))).
        { intros q Hq. simpl in Hq. replace (XS (sa (sx s)) (sb (sx s))) with (sx s) in * by (destruct (sx s); auto).
          cbn [fst snd]. replace (XS (sa (sx s)) (sb (sx s))) with (sx s) by (destruct (sx s); auto).
          eapply near_mono; [|apply (string_sides arr Wf Sr P B fr s q Is Hq)]. intros d D [E1 E2]. cbv beta in *. rewrite E1, E2. auto. }
        unfold piece_dirs in He. apply in_app_or in He as [He|He].
        * destruct (backb (sc s)); [destruct He as [<-|[]]|destruct He]. exact K.
        * destruct (forwb (sc s)); [destruct He as [<-|[]]|destruct He]. apply kept_swap. exact K.
      + rewrite Key. split; [|eauto]. intros (t & It & Ht & K).
        assert (s = t); [|subst; auto].
        assert (Norm : forall s e, wf_xseg (sx s) -> In e (piece_dirs s) -> sx s = if pt_ltb (fst e) (snd e) then XS (fst e) (snd e) else XS (snd e) (fst e)).
        { clear. intros s e W H. unfold piece_dirs in H. unfold wf_xseg in W. pose proof W as W'. apply pt_ltb_lt in W'. apply in_app_or in H as [H|H].
          - destruct (backb (sc s)); [destruct H as [<-|[]]|destruct H]. simpl. rewrite W'. destruct (sx s); auto.
          - destruct (forwb (sc s)); [destruct H as [<-|[]]|destruct H]. simpl. destruct (pt_ltb (sb (sx s)) (sa (sx s))) eqn:X; [|destruct (sx s); auto].
            apply pt_ltb_lt in X. exfalso. eapply pt_lt_irrefl, pt_lt_trans; eauto. }
        rewrite Forall_forall in Wf.
        eapply segs_inj; [apply strict_sorted_NoDup; exact Sr|auto|auto|]. rewrite (Norm s e), (Norm t e); auto.
  Qed.

  (** ** C26 for every input: the output is made of the kept pieces of the planar arrangement
      [arr] that splitting delivers, each exactly once per direction. *)
  Theorem C26_clip_lines fuel solver fr cr items out : string_bounded items -> no_grid solver (length (merged items)) ->
    (forall arr, splitI fuel solver items = Done arr -> length arr = 2%nat -> strategy solver = StList) ->
    clip_lines fuel solver fr cr items = ROk out ->
    Forall (fun path => (2 <= length path)%nat) out /\ NoDup (flat_map steps out) /\
    exists arr, (string_segments items <> [] -> splitI fuel solver items = Done arr) /\ planar (map sx arr) /\
      (forall e, In e (flat_map steps out) -> exists s, In s arr /\ In e (piece_dirs s)) /\
      (forall s e, In s arr -> In e (piece_dirs s) -> exists keep,
         piece_kept fr cr (wind (chain_of ssubj arr)) e keep /\ (In e (flat_map steps out) <-> keep = true)).
  Proof.
    intros B N L2 H. unfold clip_string_lines, build_string in H.
    assert (Nil : forall o : list (list pt), match string_graph [] (end_order []) with
                 | Some g => match into_clip_string_lines g with Some out0 => ROk out0 | None => RPanic end
                 | None => RPanic end = ROk o -> o = []).
    { intros o. cbv. intro X. congruence. }
    assert (PN : planar (map (@sx cntS) [])) by (intros s t []).
    destruct (string_segments items) as [|s0 l0] eqn:Es.
    - apply Nil in H. subst out. split; [constructor|]. split; [constructor|]. exists []. split; [congruence|]. split; auto. split; [intros e []|intros s e []].
    - rewrite <- Es in *. destruct (splitI fuel solver items) as [arr| |] eqn:Sp; try discriminate.
      destruct (string_done layout_new Lay query Qry tree_new fuel solver items arr B N Sp) as (I & P & Bal).
      assert (P' : planar (map sx arr)) by (destruct P as [P|[P1 P2]]; auto; exfalso; apply P2; eapply L2; eauto).
      destruct arr as [|a0 ar] eqn:Ea.
      + apply Nil in H. subst out. split; [constructor|]. split; [constructor|]. exists []. split; [auto|]. split; auto. split; [intros e []|intros s e []].
      + rewrite <- Ea in *. destruct (lines_of_arr fr cr arr I P' Bal) as (g & o & G). cbv zeta in G. destruct G as (G1 & G2 & G3 & G4 & G5 & G6).
        rewrite G1, G2 in H. injection H as <-. split; auto. split; auto. exists arr. auto.
  Qed.

  (** ** C26 end to end, when crossings have integer coordinates (so that no rounding moves the
      lines): the output is exactly the kept part of the input lines. *)
  Theorem C26_clip_exact fuel solver fr cr items : string_bounded items -> Forall open_contour (shape_contours items) ->
    no_grid solver (length (merged items)) -> exact_crossings (map sx (merged items)) ->
    (merged items <> [] \/ is_list_split solver 0 = true) ->
    (is_list_split solver 2 = true \/ length (merged items) <> 2%nat) ->
    exists out, clip_lines (S fuel) solver fr cr items = ROk out /\
      NoDup (flat_map steps out) /\
      (forall e, In e (flat_map steps out) ->
         (exists m, In m (moves items) /\ runs_along e m) /\ piece_kept fr cr (contours_wind (shape_contours items)) e true) /\
      (forall m q, In m (moves items) -> fst m <> snd m -> on_seg (XS (fst m) (snd m)) q ->
         exists e, runs_along e m /\ on_seg (XS (fst e) (snd e)) q /\
           (In e (flat_map steps out) \/ piece_kept fr cr (contours_wind (shape_contours items)) e false)).
  Proof.
    intros B Op N Ex NE L2.
    destruct (string_exact layout_new Lay query Qry tree_new fuel solver items B N Ex NE L2) as (arr & Sp & I & P & Bal & F & Wd).
    assert (Wf := inv_wf _ I).
    destruct (piece_dirs_moves items arr F Wf) as [PM MP].
    assert (KW : forall e keep, piece_kept fr cr (wind (chain_of ssubj arr)) e keep -> piece_kept fr cr (contours_wind (shape_contours items)) e keep).
    { intros e keep K q Hq. eapply near_mono; [|apply (K q Hq)]. intros d D E. cbv beta in *. rewrite !Wd, !string_wind in E; auto. }
    assert (On : forall s e q, In e (piece_dirs s) -> on_seg (sx s) q -> on_seg (XS (fst e) (snd e)) q).
    { intros s e q H O. unfold piece_dirs in H. destruct (sx s) as [a b] eqn:E. simpl in H. apply in_app_or in H as [H|H].
      - destruct (backb (sc s)); [destruct H as [<-|[]]|destruct H]. auto.
      - destruct (forwb (sc s)); [destruct H as [<-|[]]|destruct H]. apply on_seg_swap. auto. }
    unfold clip_string_lines, build_string.
    assert (Main : exists g out, let links := build_links (clip_included cr) arr (ModelFill.fill_string fr arr) in
      string_graph links (end_order links) = Some g /\ into_clip_string_lines g = Some out /\
      NoDup (flat_map steps out) /\
      (forall e, In e (flat_map steps out) ->
         (exists m, In m (moves items) /\ runs_along e m) /\ piece_kept fr cr (contours_wind (shape_contours items)) e true) /\
      (forall m q, In m (moves items) -> fst m <> snd m -> on_seg (XS (fst m) (snd m)) q ->
         exists e, runs_along e m /\ on_seg (XS (fst e) (snd e)) q /\
           (In e (flat_map steps out) \/ piece_kept fr cr (contours_wind (shape_contours items)) e false))).
    { destruct (lines_of_arr fr cr arr I P Bal) as (g & o & G). cbv zeta in G. destruct G as (G1 & G2 & G3 & G4 & G5 & G6).
      exists g, o. cbv zeta. split; auto. split; auto. split; auto. split.
      - intros e He. destruct (G5 e He) as (s & Is & Hd). split; [eauto|]. destruct (G6 s e Is Hd) as (keep & K & Hk).
        apply Hk in He. subst keep. auto.
      - intros m q Im Nm Om. destruct (MP m q Im Nm Om) as (s & e & Is & He & R & Os). exists e. split; auto. split; [eapply On; eauto|].
        destruct (G6 s e Is He) as ([|] & K & Hk); [left; apply Hk; auto|right; auto]. }
    destruct (string_segments items) as [|s0 l0] eqn:Es.
    - assert (arr = []).
      { destruct arr as [|a ar]; auto. exfalso. unfold split_segments, solver_split in Sp. simpl sort_merge in Sp. simpl length in Sp.
        destruct NE as [NE|NE]; [apply NE; try rewrite Es; reflexivity|]. rewrite NE in Sp. discriminate. }
      subst arr. destruct Main as (g & out & M). cbv zeta in M. destruct M as (M1 & M2 & M).
      change (string_graph [] (end_order []) = Some g) in M1. exists out. rewrite M1, M2. auto.
    - rewrite <- Es in *. rewrite Sp. destruct Main as (g & out & M). cbv zeta in M. destruct M as (M1 & M2 & M).
      exists out. split; auto. destruct arr as [|a ar]; [|rewrite M1, M2; auto]. change (string_graph [] (end_order []) = Some g) in M1. rewrite M1, M2. auto.
  Qed.

  (** ** C27: the inside/outside flags of the string graph. *)
  (** for every input: the flags are those of the subject chain of the arrangement, in which
      lines have multiplicity 0; the two other bits are the directions of the line *)
  Theorem C27_flags fuel solver fr items links : string_bounded items -> no_grid solver (length (merged items)) ->
    (forall arr, splitI fuel solver items = Done arr -> length arr = 2%nat -> strategy solver = StList) ->
    string_links layout_new query tree_new fuel solver fr items = ROk links ->
    exists arr, (string_segments items <> [] -> splitI fuel solver items = Done arr) /\ map l_seg links = map sx arr /\
      forall j l s, nth_error links j = Some l -> nth_error arr j = Some s ->
        (N.testbit (l_fill l) 2 = N.testbit (sclip (sc s)) 0 /\ N.testbit (l_fill l) 3 = N.testbit (sclip (sc s)) 1) /\
        forall q, inside_seg (sx s) q ->
          near (fun d => N.testbit (l_fill l) 0 = inside fr (wind (chain_of ssubj arr) (top_side (sx s) q d)) /\
                         N.testbit (l_fill l) 1 = inside fr (wind (chain_of ssubj arr) (bottom_side (sx s) q d))).
  Proof.
    intros B N L2 H. unfold string_links, build_string in H.
    destruct (string_segments items) as [|s0 l0] eqn:Es.
    { injection H as <-. exists []. split; [congruence|]. split; auto. intros [|j]; discriminate. }
    rewrite <- Es in *. destruct (splitI fuel solver items) as [arr| |] eqn:Sp; try discriminate.
    destruct (string_done layout_new Lay query Qry tree_new fuel solver items arr B N Sp) as (I & P & Bal).
    assert (P' : planar (map sx arr)) by (destruct P as [P|[P1 P2]]; auto; exfalso; apply P2; eapply L2; eauto).
    assert (Wf := inv_wf _ I). assert (Sr := inv_sorted _ I). assert (Ok : Forall (fun s => (sclip (sc s) < 4)%N) arr) by apply (inv_ok _ I).
    exists arr. split; auto.
    assert (EL : links = map mk_link (combine arr (ModelFill.fill_string fr arr))).
    { destruct arr as [|a ar]; [injection H as <-; reflexivity|]. injection H as <-. unfold build_links. f_equal.
      generalize (combine (a :: ar) (ModelFill.fill_string fr (a :: ar))). clear. intro l. induction l; simpl; congruence. }
    assert (Len := string_fill_length arr fr).
    split.
    - rewrite EL, map_map. unfold l_seg. simpl. clear - Len. revert Len. generalize (ModelFill.fill_string fr arr) as fs.
      induction arr as [|a ar IH]; intros [|f fs] L; try discriminate; simpl; auto. f_equal; [destruct (sx a); auto|]. apply IH. simpl in L. lia.
    - intros j l s Hl Hs. rewrite EL, nth_error_map in Hl.
      destruct (nth_error (combine arr (ModelFill.fill_string fr arr)) j) as [[s' f]|] eqn:Hc; [|discriminate]. injection Hl as <-.
      assert (Hf : s' = s /\ nth_error (ModelFill.fill_string fr arr) j = Some f).
      { clear - Hc Hs. revert Hc. generalize (ModelFill.fill_string fr arr) as fs. revert j Hs. induction arr as [|x l IH]; intros [|j] Hs [|f0 fs] H; try discriminate; simpl in *; auto.
        - injection H as -> ->. injection Hs as ->. auto.
        }
      destruct Hf as [-> Hf]. rewrite (string_fill_at arr Wf Sr P' Bal Ok fr j s Hs) in Hf. injection Hf as <-. unfold mk_link. cbn [l_fill snd].
      destruct (bits_of (inside fr (botsum bool vals (map as_bool arr) true (as_bool s) + ssubj (sc s)))
            (inside fr (botsum bool vals (map as_bool arr) true (as_bool s))) (N.testbit (sclip (sc s)) 0) (N.testbit (sclip (sc s)) 1)) as (B0 & B1 & B2 & B3).
      rewrite B0, B1, B2, B3. split; auto. intros q Hq.
      eapply near_mono; [|apply (string_sides arr Wf Sr P' Bal fr s q (nth_error_In _ _ Hs) Hq)].
      intros d D [E1 E2]. cbv beta in *. rewrite E1, E2. auto.
  Qed.

  (** end to end with integer crossings: the flags are the winding numbers of the input
      contours; lines do not occur in this statement *)
  Theorem C27_flags_exact fuel solver fr items : string_bounded items -> Forall open_contour (shape_contours items) ->
    no_grid solver (length (merged items)) -> exact_crossings (map sx (merged items)) ->
    (merged items <> [] \/ is_list_split solver 0 = true) ->
    (is_list_split solver 2 = true \/ length (merged items) <> 2%nat) ->
    exists links, string_links layout_new query tree_new (S fuel) solver fr items = ROk links /\
      forall l q, In l links -> inside_seg (l_seg l) q ->
        near (fun d => N.testbit (l_fill l) 0 = inside fr (contours_wind (shape_contours items) (top_side (l_seg l) q d)) /\
                       N.testbit (l_fill l) 1 = inside fr (contours_wind (shape_contours items) (bottom_side (l_seg l) q d))).
  Proof.
    intros B Op N Ex NE L2.
    destruct (string_exact layout_new Lay query Qry tree_new fuel solver items B N Ex NE L2) as (arr & Sp & I & P & Bal & F & Wd).
    assert (Wf := inv_wf _ I). assert (Sr := inv_sorted _ I). assert (Ok : Forall (fun s => (sclip (sc s) < 4)%N) arr) by apply (inv_ok _ I).
    exists (build_links (fun _ => true) arr (ModelFill.fill_string fr arr)). split.
    - unfold string_links, build_string. destruct (string_segments items) as [|s0 l0] eqn:Es.
      + assert (arr = []); [|subst; reflexivity].
        destruct arr as [|a ar]; auto. exfalso. unfold split_segments, solver_split in Sp. simpl sort_merge in Sp. simpl length in Sp.
        destruct NE as [NE|NE]; [apply NE; try rewrite Es; reflexivity|]. rewrite NE in Sp. discriminate.
      + rewrite <- Es in *. rewrite Sp. destruct arr; reflexivity.
    - intros l q Il Hq. apply string_links_in in Il as (s & Is & _ & ->); auto.
      unfold l_seg in *. cbn [l_a l_b l_fill] in *. replace (XS (sa (sx s)) (sb (sx s))) with (sx s) in * by (destruct (sx s); auto).
      destruct (bits_of (inside fr (botsum bool vals (map as_bool arr) true (as_bool s) + ssubj (sc s)))
            (inside fr (botsum bool vals (map as_bool arr) true (as_bool s))) (N.testbit (sclip (sc s)) 0) (N.testbit (sclip (sc s)) 1)) as (B0 & B1 & _).
      rewrite B0, B1. eapply near_mono; [|apply (string_sides arr Wf Sr P Bal fr s q Is Hq)].
      intros d D [E1 E2]. cbv beta in *. rewrite <- E1, <- E2, !Wd, !string_wind; auto.
  Qed.

  (** corollary: two string overlays with the same shapes but different lines give the same
      flags wherever their pieces meet along a common stretch *)
  Theorem C27_same_shapes fuel solver fr items1 items2 links1 links2 :
    shape_contours items1 = shape_contours items2 -> Forall open_contour (shape_contours items1) ->
    (forall items, items = items1 \/ items = items2 -> string_bounded items /\ no_grid solver (length (merged items)) /\
       exact_crossings (map sx (merged items)) /\ (merged items <> [] \/ is_list_split solver 0 = true) /\
       (is_list_split solver 2 = true \/ length (merged items) <> 2%nat)) ->
    string_links layout_new query tree_new (S fuel) solver fr items1 = ROk links1 ->
    string_links layout_new query tree_new (S fuel) solver fr items2 = ROk links2 ->
    forall l1 l2 q, In l1 links1 -> In l2 links2 -> inside_seg (l_seg l1) q -> inside_seg (l_seg l2) q ->
      (px (l_a l1) = px (l_b l1) <-> px (l_a l2) = px (l_b l2)) ->
      N.testbit (l_fill l1) 0 = N.testbit (l_fill l2) 0 /\ N.testbit (l_fill l1) 1 = N.testbit (l_fill l2) 1.
  Proof.
    intros ES Op Hyp H1 H2 l1 l2 q I1 I2 Q1 Q2 V.
    destruct (Hyp items1 (or_introl eq_refl)) as (B1 & N1 & X1 & E1 & T1).
    destruct (Hyp items2 (or_intror eq_refl)) as (B2 & N2 & X2 & E2 & T2).
    destruct (C27_flags_exact fuel solver fr items1 B1 Op N1 X1 E1 T1) as (k1 & R1 & F1).
    rewrite ES in Op. destruct (C27_flags_exact fuel solver fr items2 B2 Op N2 X2 E2 T2) as (k2 & R2 & F2).
    assert (k1 = links1) by congruence. assert (k2 = links2) by congruence. subst k1 k2.
    destruct (near_ex _ (near_and _ _ (F1 l1 q I1 Q1) (F2 l2 q I2 Q2))) as (d & _ & [A1 A2] & [A3 A4]).
    rewrite A1, A2, A3, A4, ES.
    assert (TS : top_side (l_seg l1) q d = top_side (l_seg l2) q d /\ bottom_side (l_seg l1) q d = bottom_side (l_seg l2) q d).
    { unfold top_side, bottom_side, l_seg. simpl. 
      destruct (Z.eqb_spec (px (l_a l1)) (px (l_b l1))), (Z.eqb_spec (px (l_a l2)) (px (l_b l2))); tauto. }
    destruct TS as [-> ->]. auto.
  Qed.

  (** with the LIST and AUTO strategies clipping never panics *)
  Theorem C26_no_panic fuel solver fr cr items : strategy solver = StList \/ strategy solver = StAuto ->
    string_bounded items -> no_grid solver (length (merged items)) -> clip_lines fuel solver fr cr items <> RPanic.
  Proof.
    intros St B N. unfold clip_string_lines, build_string.
    assert (Nil : match string_graph [] (end_order []) with
                 | Some g => match into_clip_string_lines g with Some out0 => ROk out0 | None => RPanic end
                 | None => RPanic end <> RPanic) by (cbv; discriminate).
    destruct (string_segments items) as [|s0 l0] eqn:Es; [exact Nil|]. rewrite <- Es in *.
    pose proof (split_no_panic layout_new Lay query Qry tree_new fuel (string_segments items) solver St N (string_inv items B)) as P.
    destruct (splitI fuel solver items) as [arr| |] eqn:Sp; try congruence.
    destruct (string_done layout_new Lay query Qry tree_new fuel solver items arr B N Sp) as (I & _ & _).
    destruct arr as [|a0 ar] eqn:Ea; [exact Nil|]. rewrite <- Ea in *.
    set (links := build_links _ _ _).
    assert (W : Forall (fun l => pt_lt (l_a l) (l_b l)) links).
    { apply Forall_forall. intros l H. apply in_map_iff in H as ([s f] & <- & H). apply filter_In in H as [H _]. apply in_combine_l in H.
      pose proof (inv_wf _ I) as Wf. rewrite Forall_forall in Wf. apply (Wf s H). }
    assert (S : StronglySorted (fun l m => pt_leb (l_a l) (l_a m) = true) links).
    { unfold links, build_links. pose proof (inv_sorted _ I) as Sr. generalize (ModelFill.fill_string fr arr) as fs. clear - Sr.
      induction Sr as [|s l S IH F]; intros [|f fs]; simpl; try constructor. destruct (clip_included cr f); simpl; auto. constructor; auto.
      apply Forall_forall. intros x H. apply in_map_iff in H as ([t g] & <- & H). apply filter_In in H as [H _]. apply in_combine_l in H. rewrite Forall_forall in F. simpl.
      apply xseg_leb_sa. apply xseg_leb_le. left. apply F. auto. }
    destruct (clip_lines_spec links (end_order links) S W (Ends links)) as (g & out & -> & -> & _). discriminate.
  Qed.
End WithContracts.

(** for every planar string arrangement (however it was rounded): deleting the lines does not
    change the flags of the remaining edges *)
Theorem C27_lines_removed fr (arr : list (segment cntS)) :
  Forall (fun s => wf_xseg (sx s)) arr -> StronglySorted (fun s t => xseg_lt (sx s) (sx t)) arr -> planar (map sx arr) ->
  balanced (chain_of ssubj arr) -> Forall (fun s => (sclip (sc s) < 4)%N) arr ->
  let shapes := map (fun s => Seg (sx s) (CB (ssubj (sc s)) 0)) (filter (fun s : segment cntS => negb (ssubj (sc s) =? 0)) arr) in
  forall j k s t f f', nth_error arr j = Some s -> nth_error shapes k = Some t -> sx t = sx s ->
    nth_error (ModelFill.fill_string fr arr) j = Some f -> nth_error (fill_boolean fr shapes) k = Some f' ->
    N.testbit f 0 = N.testbit f' 0 /\ N.testbit f 1 = N.testbit f' 1.
Proof.
  intros W S P B Ok shapes j k s t f f' Hj Hk Et Hf Hf'.
  assert (Sub : forall s, In s shapes -> exists s0, In s0 arr /\ sx s = sx s0 /\ s = Seg (sx s0) (CB (ssubj (sc s0)) 0)).
  { intros x Hx. apply in_map_iff in Hx as (y & <- & Hy). apply filter_In in Hy as [Hy _]. exists y. auto. }
  assert (Ch : forall g, zsum (fun s : segment cntB => g (sx s) (subj (sc s))) shapes = zsum (fun s : segment cntS => if ssubj (sc s) =? 0 then 0 else g (sx s) (ssubj (sc s))) arr).
  { intro g. unfold shapes. rewrite zsum_map, zsum_filter. apply zsum_ext. intros x _. simpl. destruct (ssubj (sc x) =? 0); reflexivity. }
  assert (Wd : forall q, wind (subj_chain shapes) q = wind (chain_of ssubj arr) q).
  { intro q. unfold subj_chain. rewrite !wind_chain_of. rewrite (Ch (fun x c => if under x q then c else 0)). apply zsum_ext. intros x _.
    destruct (Z.eqb_spec (ssubj (sc x)) 0) as [->|]; auto. destruct (under _ _); auto. }
  assert (A : arrangement shapes).
  { apply merged_arrangement.
    - apply Forall_forall. intros x Hx. destruct (Sub x Hx) as (y & Iy & -> & _). rewrite Forall_forall in W. auto.
    - intro v. unfold subj_chain. rewrite boundary_chain_of. rewrite (Ch (fun x c => c * (bz (pt_eqb (sb x) v) - bz (pt_eqb (sa x) v)))).
      transitivity (boundary (chain_of ssubj arr) v); [|apply B]. rewrite boundary_chain_of. apply zsum_ext. intros x _. destruct (Z.eqb_spec (ssubj (sc x)) 0) as [->|]; auto.
    - intro v. unfold clip_chain. rewrite boundary_chain_of. apply zsum_zero. intros x Hx. destruct (Sub x Hx) as (y & _ & _ & ->). simpl. lia.
    - unfold shapes, strict_sorted. clear - S. induction S as [|x l S IH F]; simpl; [constructor|].
      destruct (negb (ssubj (sc x) =? 0)); simpl; auto. constructor; auto. apply Forall_forall. intros y Hy. apply in_map_iff in Hy as (z & <- & Hz).
      apply filter_In in Hz as [Hz _]. rewrite Forall_forall in F. apply F. auto.
    - intros x y Hx Hy N q. apply in_map_iff in Hx as (x' & <- & Hx). apply in_map_iff in Hy as (y' & <- & Hy).
      destruct (Sub x' Hx) as (x0 & I0 & E0 & _). destruct (Sub y' Hy) as (y0 & I1 & E1 & _). rewrite E0, E1 in *. apply P; auto using in_map. }
  assert (Ws : wf_xseg (sx s)) by (rewrite Forall_forall in W; apply W; eapply nth_error_In; eauto).
  rewrite (string_fill_at arr W S P B Ok fr j s Hj) in Hf. injection Hf as <-.
  rewrite (fill_boolean_fill shapes A fr k t Hk) in Hf'. injection Hf' as <-.
  destruct (bits_of (inside fr (botsum bool vals (map as_bool arr) true (as_bool s) + ssubj (sc s)))
            (inside fr (botsum bool vals (map as_bool arr) true (as_bool s))) (N.testbit (sclip (sc s)) 0) (N.testbit (sclip (sc s)) 1)) as (B0 & B1 & _).
  rewrite B0, B1.
  destruct (mkfill_bits (inside fr (botsum bool vals shapes true t + subj (sc t))) (inside fr (botsum bool vals shapes true t))
     (inside fr (botsum bool vals shapes false t + clip (sc t))) (inside fr (botsum bool vals shapes false t))) as (C0 & C1 & _).
  rewrite C0, C1.
  pose proof (string_sides arr W S P B fr s (mid (sx s)) (nth_error_In _ _ Hj) (mid_inside _ Ws)) as N1.
  destruct (side_winds shapes A true t (mid (sx s)) (nth_error_In _ _ Hk)) as [N2 N3]; [rewrite Et; apply mid_inside; auto|].
  rewrite Et in N2, N3.
  destruct (near_ex _ (near_and _ _ N1 (near_and _ _ N2 N3))) as (d & _ & [E1 E2] & E3 & E4).
  simpl vals in E3, E4. fold (subj_chain shapes) in E3, E4. rewrite Wd in E3, E4. rewrite <- E1, <- E2, E3, E4. auto.
Qed.

(** ** Examples: a square with a hole, a path through it, a line back along the same stretch, a
    line on the boundary, a closed string contour *)
Definition str_items : list item :=
  [SContour (sq 0 0 10); SContour (rev (sq 4 4 2)); SPath [Pt (-5) 5; Pt 5 5; Pt 5 15]; SLine (Pt 15 5) (Pt (-3) 5);
   SLine (Pt 0 2) (Pt 0 8); SClosed [Pt 8 8; Pt 12 8; Pt 12 12]; SLine (Pt 3 3) (Pt 3 3)].
Example str_bounded : string_bounded str_items.
Proof. repeat constructor. Qed.
Example str_open : Forall open_contour (shape_contours str_items).
Proof. simpl. constructor; [left; discriminate|]. constructor; [left; discriminate|]. constructor. Qed.
Example str_exact : exact_crossings (map sx (sort_merge (string_segments str_items))).
Proof. apply exactb_ok. vm_compute. reflexivity. Qed.
Example str_grid : no_grid (mk_solver StAuto) (length (sort_merge (string_segments str_items))).
Proof. left. vm_compute. reflexivity. Qed.
Example str_inside : clip_string_lines lay4 qry (fun _ => true) sorted_ends 1 (mk_solver StAuto) NonZero (CR false false) str_items =
  ROk [[Pt 0 5; Pt 4 5; Pt 0 5]; [Pt 5 6; Pt 5 10]; [Pt 10 5; Pt 6 5]; [Pt 8 8; Pt 10 8]; [Pt 10 10; Pt 8 8]].
Proof. vm_compute. reflexivity. Qed.
Example str_outside : clip_string_lines lay4 qry (fun _ => true) sorted_ends 1 (mk_solver StAuto) NonZero (CR true true) str_items =
  ROk [[Pt (-5) 5; Pt (-3) 5; Pt 0 5; Pt (-3) 5]; [Pt 4 5; Pt 5 5; Pt 5 6]; [Pt 6 5; Pt 5 5; Pt 4 5]; [Pt 5 10; Pt 5 15];
       [Pt 15 5; Pt 10 5]; [Pt 10 8; Pt 12 8; Pt 12 12; Pt 10 10]].
Proof. vm_compute. reflexivity. Qed.
(** the hypotheses of the end-to-end theorems are met *)
Example str_clip : exists out, clip_string_lines lay4 qry (fun _ => true) sorted_ends 1 (mk_solver StAuto) NonZero (CR false true) str_items = ROk out /\
  NoDup (flat_map steps out) /\
  (forall e, In e (flat_map steps out) ->
     (exists m, In m (moves str_items) /\ runs_along e m) /\ piece_kept NonZero (CR false true) (contours_wind (shape_contours str_items)) e true) /\
  (forall m q, In m (moves str_items) -> fst m <> snd m -> on_seg (XS (fst m) (snd m)) q ->
     exists e, runs_along e m /\ on_seg (XS (fst e) (snd e)) q /\
       (In e (flat_map steps out) \/ piece_kept NonZero (CR false true) (contours_wind (shape_contours str_items)) e false)).
Proof.
  apply (C26_clip_exact lay4 lay4_ok qry qry_ok (fun _ => true) sorted_ends sorted_ends_ok 0 (mk_solver StAuto)).
  - exact str_bounded.
  - exact str_open.
  - exact str_grid.
  - exact str_exact.
  - right. reflexivity.
  - left. reflexivity.
Qed.
Definition str_items2 : list item := firstn 2 str_items ++ [SLine (Pt 1 (-3)) (Pt 1 20)].
Example str_same_shapes : shape_contours str_items = shape_contours str_items2 /\ moves str_items <> moves str_items2 /\
  exact_crossings (map sx (sort_merge (string_segments str_items2))).
Proof. split; [reflexivity|]. split; [discriminate|]. apply exactb_ok. vm_compute. reflexivity. Qed.

Print Assumptions C26_walk.
Print Assumptions C26_clip_lines.
Print Assumptions C26_clip_exact.
Print Assumptions C26_no_panic.
Print Assumptions C27_flags.
Print Assumptions C27_flags_exact.
Print Assumptions C27_same_shapes.
Print Assumptions C27_lines_removed.
