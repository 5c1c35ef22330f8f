(** * Property theorems, part 24: answers can be given to the library again (C54). *)
From Verif Require Import Base Spec QLib ModelSegm SegmProofs MergeProofs PlanarGeo PlanarSum ModelFill ModelFilter FillProofs FillCorrect
  ModelCross CrossProofs CrossPoint MarksProofs CoreResults Properties01 ModelSplit SplitProofs SplitPlanar SplitPass BinsProofs SplitApply SplitLoop
  ModelFrag ModelOverlay OverlayProofs FragProofs GridCover Properties02
  ModelGraph GraphProofs ModelExtract ExtractProofs ContourResults Rotation NextLink Properties03
  MoveLemma SectorLemma Sides WalkSides Orient Properties04 ModelBind BindProofs BindSweep Nest Properties05 SplitNear InputCover Properties15 ModelFloat OverlayNear Stable.
From Coq Require Import Lqa Qabs Permutation.
Open Scope Z_scope.

(** ** Specification *)
(** all contours of some answers (an answer is a list of shapes, a shape a list of contours) *)
Definition contours_of (answers : list (list (list (list pt)))) : list (list pt) := flat_map (@concat (list pt)) answers.
(** the input of a second call: the contours of some answers as subject, those of others as clip *)
Definition together (subj clip : list (list (list (list pt)))) : input := given Subject (contours_of subj) ++ given Clip (contours_of clip).
(** the fill rule takes contours of this main direction for the region they enclose *)
Definition reads (fr : FillRule) (clockwise : bool) : bool :=
  match fr with EvenOdd | NonZero => true | Positive => negb clockwise | Negative => clockwise end.
Lemma reads_inside fr clockwise (b : bool) : reads fr clockwise = true -> inside fr (if b then sign_of clockwise else 0) = b.
Proof. destruct fr, clockwise, b; cbn; auto; discriminate. Qed.

Lemma operand_together t subj clip : operand t (together subj clip) = contours_of match t with Subject => subj | Clip => clip end.
Proof.
  unfold together. assert (F : forall (u : ShapeType) cs, operand u (given match u with Subject => Clip | Clip => Subject end cs) = []).
  { intros u cs. unfold operand, given. induction cs as [|c cs IH]; auto. destruct u; cbn [map filter snd]; exact IH. }
  assert (P : operand t (given Subject (contours_of subj) ++ given Clip (contours_of clip)) = operand t (given Subject (contours_of subj)) ++ operand t (given Clip (contours_of clip))).
  { unfold operand. rewrite filter_app, map_app. reflexivity. }
  rewrite P. destruct t.
  - rewrite operand_given. rewrite (F Subject). apply app_nil_r.
  - rewrite operand_given. rewrite (F Clip). reflexivity.
Qed.
Lemma together_fst subj clip : map fst (together subj clip) = contours_of subj ++ contours_of clip.
Proof. unfold together. rewrite map_app, !given_fst. reflexivity. Qed.

Section WithContracts.
  Variable layout_new : Z -> Z -> nat -> option (Z -> nat).
  Hypothesis Lay : layout_ok layout_new.
  Variable query : list (nat * xseg) -> Z * Z -> Z -> list (nat * xseg).
  Hypothesis Qry : query_ok query.
  Variable tree_new : Z * Z -> bool.
  Variable sort_ends : list link -> list (nat * pt).
  Hypothesis Sort : forall ls, ends_ok ls (sort_ends ls).
  Variable clean : bool -> list pt -> list pt * bool.
  Hypothesis Cl : clean_ok clean.
  Hypothesis Ce : clean_edges clean.
  Hypothesis Co : clean_open clean.
  Notation merged adds := (sort_merge (input_segments adds)).
  Notation overlay fuel dbg solver adds r fr clockwise simplify min_area := (overlay_custom layout_new query tree_new sort_ends clean fuel dbg adds r fr clockwise simplify min_area solver).
  Notation answer := (answer layout_new query tree_new sort_ends clean).
  Notation split_of := (split_of layout_new query tree_new).

  Section Call.
    (** the first input, how it was solved, and answers for it: any rules, fill rules and options, direct calls or graph *)
    Variables (fuel : nat) (solver : Solver) (adds : input).
    Hypothesis B : bounded_input adds.
    Hypothesis N : no_grid solver (length (merged adds)).
    Variables subj clip : list (list (list (list pt))).
    Hypothesis An : Forall (answer fuel solver adds) (subj ++ clip).

    Lemma together_ok : bounded_input (together subj clip) /\ Forall (fun a => open_contour (fst a)) (together subj clip) /\ exact_crossings (map sx (merged (together subj clip))).
    Proof.
      assert (K : exists xs, planar xs /\ (forall x, In x xs -> wf_xseg x /\ bounded x) /\ drawn_on xs (map fst (together subj clip)) /\ Forall (fun a => open_contour (fst a)) (together subj clip)).
      { destruct (subj ++ clip) as [|a0 l0] eqn:E0.
        - apply app_eq_nil in E0 as [-> ->]. exists []. split; [intros ? ? []|]. split; [intros ? []|]. split; [intros ? ? ? []|constructor].
        - inversion An as [|? ? H0 _]; subst. destruct (answer_split layout_new Lay query Qry tree_new sort_ends Sort clean Cl Ce Co _ _ _ _ B N H0) as (segs & Es).
          destruct (split_arr layout_new Lay query Qry tree_new _ _ _ _ B N Es) as [A Bd]. exists (map sx segs).
          split; [apply (arr_planar _ A)|]. split.
          { intros x Ix. apply in_map_iff in Ix as (s & <- & Is). split; [apply (arr_wf _ A); auto|]. rewrite Forall_forall in Bd. apply Bd; auto. }
          assert (D : forall c, In c (contours_of subj ++ contours_of clip) -> exists a, In a (subj ++ clip) /\ In c (concat a)).
          { intros c Ic. unfold contours_of in Ic. rewrite <- flat_map_app in Ic. apply in_flat_map in Ic as (a & Ia & Ic). eauto. }
          rewrite <- E0 in An. rewrite Forall_forall in An. rewrite together_fst. split.
          + intros c e q Ic Ie Oq. destruct (D c Ic) as (a & Ia & Ica).
            destruct (answer_drawn layout_new Lay query Qry tree_new sort_ends Sort clean Cl Ce Co _ _ _ _ _ B N Es (An a Ia)) as [Dr _]. apply (Dr c e q); auto.
          + rewrite <- Forall_map, together_fst. apply Forall_forall. intros c Ic. destruct (D c Ic) as (a & Ia & Ica).
            destruct (answer_drawn layout_new Lay query Qry tree_new sort_ends Sort clean Cl Ce Co _ _ _ _ _ B N Es (An a Ia)) as [_ Op]. rewrite Forall_forall in Op. apply Op; auto. }
      destruct K as (xs & P & Wb & D & O). split; [|split; auto].
      - unfold bounded_input. apply Forall_forall. intros [c t] Ia. cbn [fst]. apply Forall_forall. intros p Ip.
        assert (Ic : In c (map fst (together subj clip))) by (apply in_map_iff; exists (c, t); auto).
        destruct c as [|a l]; [destruct Ip|]. destruct (edge_starts (a :: l) (l ++ [a]) p) as (e & Ie & <-); auto. { rewrite app_length. simpl. lia. }
        destruct (D (a :: l) e (qof (fst e)) Ic Ie) as (x & Ix & Ox). { exists 0%Q. cbn [sa sb fst snd qof]. split; [lra|]. split; ring. }
        destruct (on_bounded x (fst e) (proj2 (Wb x Ix)) Ox). lia.
      - apply (drawn_exact xs); auto. intros x Ix. apply (Wb x Ix).
    Qed.

    Variables (fuel' : nat) (solver' : Solver).
    Hypothesis N' : no_grid solver' (length (merged (together subj clip))).
    Notation subj_wind := (contours_wind (contours_of subj)).
    Notation clip_wind := (contours_wind (contours_of clip)).

    (** no crossing is rounded, one round of splitting is enough *)
    Theorem C54_one_round r fr : merged (together subj clip) <> [] ->
      exists ls, overlay_links layout_new query tree_new (S fuel') solver' r fr (input_segments (together subj clip)) = ROk ls /\
        forall q, edge_region ls q = bool_op r (inside fr (subj_wind q)) (inside fr (clip_wind q)).
    Proof.
      intro NE. destruct together_ok as (B2 & O2 & E2).
      destruct (C20_region_exact layout_new Lay query Qry tree_new fuel' solver' (together subj clip) r fr B2 N' O2 NE E2) as (ls & Hl & R).
      exists ls. split; auto. intro q. rewrite R, !operand_together. reflexivity.
    Qed.

    (** what a second call returns: exactly the Boolean operation of the contours given, at every point; and no new boundary *)
    Theorem C54_combine dbg r fr clockwise simplify shapes : overlay (S fuel') dbg solver' (together subj clip) r fr clockwise simplify 0 = ROk shapes ->
      (forall q, contours_wind (concat shapes) q = if bool_op r (inside fr (subj_wind q)) (inside fr (clip_wind q)) then sign_of clockwise else 0) /\
      (forall q, on_contours (concat shapes) q -> on_contours (contours_of subj ++ contours_of clip) q).
    Proof.
      intro H. destruct together_ok as (B2 & O2 & E2).
      destruct (overlay_inv _ _ _ _ _ _ _ _ _ _ _ _ _ _ _ H) as (segs & g & Es & Hg & Hx).
      destruct (split_arr layout_new Lay query Qry tree_new _ _ _ _ B2 N' Es) as [A _].
      destruct (exact_split layout_new Lay query Qry tree_new _ _ _ _ B2 N' O2 E2 Es) as [Ws Wc].
      destruct (direct_result segs A fr r clean Cl Ce dbg clockwise simplify _ g shapes (Sort _) Hg Hx) as [D1 D2].
      assert (D1' : forall q, contours_wind (concat shapes) q = if bool_op r (inside fr (subj_wind q)) (inside fr (clip_wind q)) then sign_of clockwise else 0).
      { intro q. rewrite D1, Ws, Wc, !operand_together. reflexivity. }
      split; auto. intros q (c & e & Ic & Ie & Oq). destruct (D2 c e q Ic Ie Oq) as (l & Il & Ol). rewrite <- together_fst.
      apply (link_changes segs A fr r (together subj clip) B2 O2 Ws Wc l); auto.
    Qed.
  End Call.

  Notation answer_for := (answer_for layout_new query tree_new sort_ends clean).
  Lemma for_answer fuel solver adds r fr clockwise min_area shapes : answer_for fuel solver adds r fr clockwise min_area shapes -> answer fuel solver adds shapes.
  Proof. intro H. exists r, fr, clockwise, min_area. exact H. Qed.
  Lemma contours_of_one a : contours_of [a] = concat a.
  Proof. unfold contours_of. cbn [flat_map]. apply app_nil_r. Qed.

  (** Two answers (with no smallest area) with the same winding numbers have the same boundary, whatever they are answers for *)
  Theorem C54_boundary fuel1 solver1 adds1 r1 fr1 clockwise1 shapes1 fuel2 solver2 adds2 r2 fr2 clockwise2 shapes2 :
    bounded_input adds1 -> no_grid solver1 (length (merged adds1)) -> answer_for fuel1 solver1 adds1 r1 fr1 clockwise1 0 shapes1 ->
    bounded_input adds2 -> no_grid solver2 (length (merged adds2)) -> answer_for fuel2 solver2 adds2 r2 fr2 clockwise2 0 shapes2 ->
    (forall q, contours_wind (concat shapes1) q <> 0 <-> contours_wind (concat shapes2) q <> 0) ->
    forall q, on_contours (concat shapes1) q <-> on_contours (concat shapes2) q.
  Proof.
    assert (H : forall fuel1 solver1 adds1 r1 fr1 clockwise1 shapes1 fuel2 solver2 adds2 r2 fr2 clockwise2 shapes2,
      bounded_input adds1 -> no_grid solver1 (length (merged adds1)) -> answer_for fuel1 solver1 adds1 r1 fr1 clockwise1 0 shapes1 ->
      bounded_input adds2 -> no_grid solver2 (length (merged adds2)) -> answer_for fuel2 solver2 adds2 r2 fr2 clockwise2 0 shapes2 ->
      (forall q, contours_wind (concat shapes1) q <> 0 <-> contours_wind (concat shapes2) q <> 0) ->
      forall q, on_contours (concat shapes1) q -> on_contours (concat shapes2) q).
    { clear fuel1 solver1 adds1 r1 fr1 clockwise1 shapes1 fuel2 solver2 adds2 r2 fr2 clockwise2 shapes2. intros fuel1 solver1 adds1 r1 fr1 cw1 shapes1 fuel2 solver2 adds2 r2 fr2 cw2 shapes2 B1 N1 A1 B2 N2 A2 W q (c & e & Ic & Ie & Oq).
      destruct (answer_for_drawn layout_new Lay query Qry tree_new sort_ends Sort clean Cl Ce Co _ _ _ _ _ _ _ _ B1 N1 A1) as (segs1 & _ & Ar1 & _ & D1 & _ & R1). specialize (R1 eq_refl).
      destruct (answer_for_drawn layout_new Lay query Qry tree_new sort_ends Sort clean Cl Ce Co _ _ _ _ _ _ _ _ B2 N2 A2) as (segs2 & _ & Ar2 & _ & _ & O2 & R2). specialize (R2 eq_refl).
      destruct (D1 c e q Ic Ie Oq) as (x & Ix & Ox). apply in_map_iff in Ix as (l & <- & Il).
      assert (An : Forall (answer fuel2 solver2 adds2) ([shapes2] ++ [])) by (constructor; [eapply for_answer; eauto|constructor]).
      destruct (together_ok _ _ _ B2 N2 [shapes2] [] An) as (Bt & _). unfold together in Bt. rewrite contours_of_one in Bt. cbn [contours_of flat_map given map] in Bt. rewrite app_nil_r in Bt.
      apply (link_bounds segs1 Ar1 fr1 r1 (concat shapes2) (sign_of cw2)) with (l := l); auto; [destruct cw2; discriminate|].
      intro p. specialize (W p). rewrite R1 in W. specialize (R2 p).
      destruct (bool_op r1 _ _); destruct (bool_op r2 _ _) in R2; auto.
      - exfalso. rewrite R2 in W. apply (proj1 W); destruct cw1; auto; discriminate.
      - exfalso. rewrite R2 in W. apply (proj2 W); destruct cw2; auto; discriminate. }
    intros B1 N1 A1 B2 N2 A2 W q. split; [exact (H _ _ _ _ _ _ _ _ _ _ _ _ _ _ B1 N1 A1 B2 N2 A2 W q)|].
    exact (H _ _ _ _ _ _ _ _ _ _ _ _ _ _ B2 N2 A2 B1 N1 A1 (fun p => iff_sym (W p)) q).
  Qed.

  (** Laws between answers for one input: the operation [r] of the answers for [r1] and [r2] is the answer for [r3],
      the same winding numbers everywhere and the same boundary, whatever was rounded in finding the first three *)
  Theorem C54_laws fuel solver adds fr r1 r2 r3 cw1 cw2 cw3 s1 s2 s3 r fr' : bounded_input adds -> no_grid solver (length (merged adds)) ->
    answer_for fuel solver adds r1 fr cw1 0 s1 -> answer_for fuel solver adds r2 fr cw2 0 s2 -> answer_for fuel solver adds r3 fr cw3 0 s3 ->
    (forall a b, bool_op r (bool_op r1 a b) (bool_op r2 a b) = bool_op r3 a b) -> reads fr' cw1 = true -> reads fr' cw2 = true ->
    forall fuel' solver' dbg simplify s4, no_grid solver' (length (merged (together [s1] [s2]))) ->
      overlay (S fuel') dbg solver' (together [s1] [s2]) r fr' cw3 simplify 0 = ROk s4 ->
      (forall q, contours_wind (concat s4) q = contours_wind (concat s3) q) /\ forall q, on_contours (concat s4) q <-> on_contours (concat s3) q.
  Proof.
    intros B N A1 A2 A3 L R1 R2 fuel' solver' dbg simplify s4 N' H.
    assert (An : Forall (answer fuel solver adds) ([s1] ++ [s2])) by (constructor; [eapply for_answer; eauto|constructor; [eapply for_answer; eauto|constructor]]).
    destruct (C54_combine _ _ _ B N [s1] [s2] An _ _ N' _ _ _ _ _ _ H) as [W4 _]. rewrite !contours_of_one in W4.
    destruct (answer_for_drawn layout_new Lay query Qry tree_new sort_ends Sort clean Cl Ce Co _ _ _ _ _ _ _ _ B N A1) as (segs & Es & _ & _ & _ & _ & W1). specialize (W1 eq_refl).
    destruct (answer_for_drawn layout_new Lay query Qry tree_new sort_ends Sort clean Cl Ce Co _ _ _ _ _ _ _ _ B N A2) as (segs' & Es' & _ & _ & _ & _ & W2). rewrite Es in Es'. injection Es' as <-. specialize (W2 eq_refl).
    destruct (answer_for_drawn layout_new Lay query Qry tree_new sort_ends Sort clean Cl Ce Co _ _ _ _ _ _ _ _ B N A3) as (segs' & Es' & _ & _ & _ & _ & W3). rewrite Es in Es'. injection Es' as <-. specialize (W3 eq_refl).
    assert (W : forall q, contours_wind (concat s4) q = contours_wind (concat s3) q).
    { intro q. rewrite W4, W1, W2, W3, !reads_inside, L by auto. reflexivity. }
    split; auto. destruct (together_ok _ _ _ B N [s1] [s2] An) as (Bt & _).
    assert (A4 : answer_for (S fuel') solver' (together [s1] [s2]) r fr' cw3 0 s4) by (exists dbg, simplify; left; exact H).
    apply (C54_boundary _ _ _ _ _ _ _ _ _ _ _ _ _ _ Bt N' A4 B N A3). intro q. rewrite W. tauto.
  Qed.

  (** Giving an answer to the library again changes nothing *)
  Theorem C54_again fuel solver adds r1 fr cw s1 r fr' : bounded_input adds -> no_grid solver (length (merged adds)) ->
    answer_for fuel solver adds r1 fr cw 0 s1 -> (forall a, bool_op r a false = a) -> reads fr' cw = true ->
    forall fuel' solver' dbg simplify s2, no_grid solver' (length (merged (together [s1] []))) ->
      overlay (S fuel') dbg solver' (together [s1] []) r fr' cw simplify 0 = ROk s2 ->
      (forall q, contours_wind (concat s2) q = contours_wind (concat s1) q) /\ forall q, on_contours (concat s2) q <-> on_contours (concat s1) q.
  Proof.
    intros B N A1 L R1 fuel' solver' dbg simplify s2 N' H.
    assert (An : Forall (answer fuel solver adds) ([s1] ++ [])) by (constructor; [eapply for_answer; eauto|constructor]).
    destruct (C54_combine _ _ _ B N [s1] [] An _ _ N' _ _ _ _ _ _ H) as [W2 _]. rewrite contours_of_one in W2.
    destruct (answer_for_drawn layout_new Lay query Qry tree_new sort_ends Sort clean Cl Ce Co _ _ _ _ _ _ _ _ B N A1) as (segs & Es & _ & _ & _ & _ & W1). specialize (W1 eq_refl).
    assert (W : forall q, contours_wind (concat s2) q = contours_wind (concat s1) q).
    { intro q. rewrite W2, W1, reads_inside by auto. assert (Z : inside fr' (contours_wind (contours_of []) q) = false) by (destruct fr'; reflexivity). rewrite Z, L. reflexivity. }
    split; auto. destruct (together_ok _ _ _ B N [s1] [] An) as (Bt & _).
    assert (A2 : answer_for (S fuel') solver' (together [s1] []) r fr' cw 0 s2) by (exists dbg, simplify; left; exact H).
    apply (C54_boundary _ _ _ _ _ _ _ _ _ _ _ _ _ _ Bt N' A2 B N A1). intro q. rewrite W. tauto.
  Qed.
End WithContracts.

(** ** Examples *)
Example C54_contracts : layout_ok lay4 /\ query_ok qry /\ (forall ls, ends_ok ls (sorted_ends ls)) /\ clean_ok keep /\ clean_edges keep /\ clean_open keep.
Proof. split; [apply lay4_ok|]. split; [apply qry_ok|]. split; [apply sorted_ends_ok|]. split; [intros b c q; reflexivity|]. split; [intros b c e q I O; exists e; auto|]. intros b c O. exact O. Qed.
Definition run_big (r : OverlayRule) : run (list (list (list pt))) := overlay_custom lay4 qry (fun _ => true) sorted_ends keep 2 true big_adds r NonZero false false 0 (mk_solver StAuto).
Definition got (x : run (list (list (list pt)))) : list (list (list pt)) := match x with ROk s => s | _ => [] end.
Definition run_again (r : OverlayRule) (s1 s2 : list (list (list (list pt)))) : run (list (list (list pt))) :=
  overlay_custom lay4 qry (fun _ => true) sorted_ends keep 1 true (together s1 s2) r EvenOdd false false 0 (mk_solver StAuto).
(** The two quadrilaterals of C47, whose crossings have to be rounded (one round is not enough): the difference and the intersection together
    are the subject again, with one round only; so is the answer given again *)
Example C54_example :
  bounded_input big_adds /\ no_grid (mk_solver StAuto) (length (sort_merge (input_segments big_adds))) /\
  overlay_custom lay4 qry (fun _ => true) sorted_ends keep 1 true big_adds RDifference NonZero false false 0 (mk_solver StAuto) = RFuel /\
  run_big RDifference = ROk [[[Pt 13 990; Pt 0 0; Pt 1000 37; Pt 1009 556; Pt 503 500; Pt 427 995]]] /\
  run_big RIntersect = ROk [[[Pt 1017 1003; Pt 427 995; Pt 503 500; Pt 1009 556]]] /\
  run_big RSubject = ROk [[[Pt 13 990; Pt 0 0; Pt 1000 37; Pt 1009 556; Pt 1017 1003; Pt 427 995]]] /\
  no_grid (mk_solver StAuto) (length (sort_merge (input_segments (together [got (run_big RDifference)] [got (run_big RIntersect)])))) /\
  (forall a b, bool_op RUnion (bool_op RDifference a b) (bool_op RIntersect a b) = bool_op RSubject a b) /\ reads EvenOdd false = true /\
  run_again RUnion [got (run_big RDifference)] [got (run_big RIntersect)] = run_big RSubject /\
  (forall a, bool_op RSubject a false = a) /\ run_again RSubject [got (run_big RDifference)] [] = run_big RDifference.
Proof.
  split; [repeat constructor|]. split; [left; reflexivity|]. split; [vm_compute; reflexivity|]. split; [vm_compute; reflexivity|]. split; [vm_compute; reflexivity|].
  split; [vm_compute; reflexivity|]. split; [left; vm_compute; reflexivity|]. split; [intros [|] [|]; reflexivity|]. split; [reflexivity|]. split; [vm_compute; reflexivity|].
  split; [intros [|]; reflexivity|]. vm_compute. reflexivity.
Qed.
