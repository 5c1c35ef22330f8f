(** * Property theorems, part 1: input, merging, fill sweep, filters, crossings.

    Each theorem only restates a proved lemma in the vocabulary of [Spec.v]; below each
    group, [Example]s show that the hypotheses hold for concrete non-trivial inputs. *)
From Verif Require Import Base Spec QLib ModelSegm SegmProofs MergeProofs PlanarGeo PlanarSum
  ModelFill ModelFilter FillProofs FillCorrect ModelCross CrossProofs CrossPoint MarksProofs CoreResults.
Open Scope Z_scope.

(** ** Examples used for non-vacuity: a subject square, a clip square inside it, and a
    clip triangle touching the subject square from the outside. *)
Definition sq (x y d : Z) : list pt := [Pt x y; Pt (x + d) y; Pt (x + d) (y + d); Pt x (y + d)].
Definition ex_adds : input :=
  [(sq 0 0 10, Subject); (sq 2 2 3, Clip); ([Pt 10 0; Pt 15 5; Pt 10 10], Clip); (sq 3 3 1, Subject)].
Definition ex_segs : list (segment cntB) := sort_merge (input_segments ex_adds).

Example ex_open : Forall (fun a => open_contour (fst a)) ex_adds.
Proof. repeat constructor; discriminate. Qed.
Example ex_planar : planar (map sx ex_segs).
Proof. apply planarb_ok; vm_compute; reflexivity. Qed.
Example ex_arrangement : arrangement ex_segs.
Proof. apply input_arrangement. exact ex_planar. Qed.
Example ex_size : length ex_segs = 14%nat.
Proof. vm_compute. reflexivity. Qed.

(** ** C01: which edges belong to the result, and on which side it is filled. *)
Theorem C01_result_edges segs fr r s q : arrangement segs -> In s segs -> inside_seg (sx s) q ->
  near (fun d =>
    let inside_result (p : qpt) :=
      bool_op r (inside fr (wind (subj_chain segs) p)) (inside fr (wind (clip_chain segs) p)) in
    ((exists l, In l (result_links fr r segs) /\ l_seg l = sx s) <->
       inside_result (top_side (sx s) q d) <> inside_result (bottom_side (sx s) q d)) /\
    (forall l, In l (result_links fr r segs) -> l_seg l = sx s ->
       is_fill_top r (l_fill l) = inside_result (top_side (sx s) q d))).
Proof. intro A. exact (result_edges segs A fr r s q). Qed.

(** the result consists of edges of the arrangement, none twice *)
Theorem C01_result_is_subset segs fr r : arrangement segs ->
  (forall l, In l (result_links fr r segs) -> exists s, In s segs /\ l_seg l = sx s) /\
  NoDup (map l_seg (result_links fr r segs)).
Proof. intro A. exact (result_is_subset segs A fr r). Qed.

Example C01_example : length (result_links EvenOdd RDifference ex_segs) = 8%nat /\
  length (result_links NonZero RIntersect ex_segs) = 4%nat /\ length (result_links NonZero RUnion ex_segs) = 5%nat.
Proof. vm_compute. auto. Qed.

(** ** C02: the four flags of every edge, for every fill rule. *)
Theorem C02_fill_flags segs fr j s f q : arrangement segs ->
  nth_error segs j = Some s -> nth_error (fill_boolean fr segs) j = Some f -> inside_seg (sx s) q ->
  near (fun d =>
    N.testbit f 0 = inside fr (wind (subj_chain segs) (top_side (sx s) q d)) /\
    N.testbit f 1 = inside fr (wind (subj_chain segs) (bottom_side (sx s) q d)) /\
    N.testbit f 2 = inside fr (wind (clip_chain segs) (top_side (sx s) q d)) /\
    N.testbit f 3 = inside fr (wind (clip_chain segs) (bottom_side (sx s) q d))).
Proof. intro A. exact (fill_boolean_correct segs A fr j s f q). Qed.
Theorem C02_fill_all_edges segs fr : length (fill_boolean fr segs) = length segs.
Proof. exact (fill_boolean_length segs fr). Qed.

Example C02_example : fill_boolean NonZero ex_segs = [2; 1; 2; 11; 7; 11; 15; 15; 15; 15; 7; 9; 4; 8]%N.
Proof. vm_compute. reflexivity. Qed.

(** ** C03: adding a contour adds its winding number to its operand. *)
Theorem C03_add_contour_partial path t q : open_contour path ->
  wind (subj_chain (append_path path t)) q = (match t with Subject => contour_wind path q | Clip => 0 end) /\
  wind (clip_chain (append_path path t)) q = (match t with Subject => 0 | Clip => contour_wind path q end).
Proof.
  intro H. unfold subj_chain, clip_chain. destruct t.
  - rewrite (append_path_wind subj Subject 1 path q), (append_path_wind clip Subject 0 path q); auto. lia.
  - rewrite (append_path_wind subj Clip 0 path q), (append_path_wind clip Clip 1 path q); auto. lia.
Qed.
Theorem C03_closed_nondegenerate path t :
  balanced (subj_chain (append_path path t)) /\ balanced (clip_chain (append_path path t)) /\
  Forall (fun s => pt_lt (sa (sx s)) (sb (sx s))) (@append_path cntB _ path t) /\
  Forall (fun s : segment cntB => subj (sc s) <> 0 \/ clip (sc s) <> 0) (append_path path t).
Proof.
  repeat split.
  - intro v. destruct t; [apply (append_path_boundary subj Subject 1)|apply (append_path_boundary subj Clip 0)]; auto.
  - intro v. destruct t; [apply (append_path_boundary clip Subject 0)|apply (append_path_boundary clip Clip 1)]; auto.
  - apply append_path_wf.
  - eapply Forall_impl; [|apply append_path_nonempty]. intros [x [a b]]; simpl. lia.
Qed.
(** A contour that repeats its first point at the end is NOT stored faithfully:
    a closed triangle loses its whole interior. *)
Theorem C03_repeated_first_point_refuted :
  exists path t q, wind (subj_chain (append_path path t)) q <> contour_wind path q /\ t = Subject /\
    last path (Pt 0 0) = hd (Pt 0 0) path.
Proof.
  exists [Pt 0 0; Pt 10 0; Pt 10 10; Pt 0 0], Subject, ((5 # 1), (1 # 1))%Q.
  vm_compute. repeat split; discriminate.
Qed.
Theorem C03_all_inputs_partial adds q : Forall (fun a => open_contour (fst a)) adds ->
  wind (subj_chain (input_segments adds)) q = contours_wind (operand Subject adds) q /\
  wind (clip_chain (input_segments adds)) q = contours_wind (operand Clip adds) q.
Proof. intro H. split; [apply input_wind_subj|apply input_wind_clip]; auto. Qed.
Example C03_example : contour_wind (sq 0 0 10) ((5 # 1), (1 # 1))%Q = 1 /\
  wind (subj_chain (append_path [Pt 0 0; Pt 5 0; Pt 10 0; Pt 10 10; Pt 10 10; Pt 0 10; Pt 0 20; Pt 0 10] Subject)) ((5 # 1), (1 # 1))%Q = 1.
Proof. vm_compute. auto. Qed.

(** ** C04: merging coincident edges. *)
Theorem C04_merge (l : list (segment cntB)) :
  StronglySorted (fun s t => xseg_lt (sx s) (sx t)) (sort_merge l) /\
  (forall q, wind (subj_chain (sort_merge l)) q = wind (subj_chain l) q /\
             wind (clip_chain (sort_merge l)) q = wind (clip_chain l) q) /\
  (forall v, boundary (subj_chain (sort_merge l)) v = boundary (subj_chain l) v /\
             boundary (clip_chain (sort_merge l)) v = boundary (clip_chain l) v) /\
  (forall s, In s (sort_merge l) -> exists s', In s' l /\ sx s' = sx s) /\
  (Forall (fun s => wc_not_empty (sc s) = true) l -> Forall (fun s => wc_not_empty (sc s) = true) (sort_merge l)).
Proof.
  split; [|split; [|split; [|split]]].
  - exact (sort_merge_sorted l).
  - intro q. split; apply sort_merge_wind; reflexivity || (intros [? ?]; simpl; lia).
  - intro v. split; apply sort_merge_boundary; reflexivity || (intros [? ?]; simpl; lia).
  - intros s I.
    assert (F : Forall (fun s => exists s', In s' l /\ sx s' = sx s) (sort_merge l)).
    { apply (sort_merge_elems (fun x => exists s', In s' l /\ sx s' = x)). apply Forall_forall. eauto. }
    rewrite Forall_forall in F. auto.
  - apply sort_merge_nonempty.
Qed.
Example C04_example :
  sort_merge [Seg (XS (Pt 0 0) (Pt 1 1)) (CB 1 0); Seg (XS (Pt 0 0) (Pt 1 0)) (CB 0 1);
              Seg (XS (Pt 0 0) (Pt 1 1)) (CB (-1) 0); Seg (XS (Pt 0 0) (Pt 1 0)) (CB 2 0)] =
  [Seg (XS (Pt 0 0) (Pt 1 0)) (CB 2 1)].
Proof. vm_compute. reflexivity. Qed.

(** ** C05: the order of the contours is irrelevant, whatever sorting algorithm is used. *)
Theorem C05_order_of_contours adds adds' : Permutation adds adds' ->
  sort_merge (input_segments adds) = sort_merge (input_segments adds').
Proof.
  intro P. apply sort_merge_perm; [apply Permutation_flat_map; auto|apply input_nonempty].
Qed.
Theorem C05_any_sort (l m : list (segment cntB)) :
  Permutation l m -> StronglySorted (fun s t => xseg_leb (sx s) (sx t) = true) m ->
  Forall (fun s => wc_not_empty (sc s) = true) l -> merge_if_needed m = sort_merge l.
Proof. exact (merge_any_sort l m). Qed.

(** ** C06: contour direction. *)
Theorem C06_reverse_contour path q fr :
  contour_wind (rev path) q = - contour_wind path q /\
  inside fr (contour_wind (rev path) q) =
    inside (match fr with Positive => Negative | Negative => Positive | x => x end) (contour_wind path q).
Proof. rewrite contour_wind_rev. split; auto. rewrite inside_neg. destruct fr; reflexivity. Qed.
(** edge by edge: reversing all edges and exchanging Positive/Negative gives the same flags *)
Theorem C06_reverse_fill segs fr : arrangement segs ->
  fill_boolean fr (map (fun s => Seg (sx s) (wc_invert (sc s))) segs) =
  fill_boolean (match fr with Positive => Negative | Negative => Positive | x => x end) segs.
Proof. intro A. pose proof (reverse_fill fr segs A) as H. destruct fr; exact H. Qed.

(** ** C07: subject/clip symmetry. *)
Theorem C07_swap segs fr r : arrangement segs ->
  let segs' := map (fun s => Seg (sx s) (CB (clip (sc s)) (subj (sc s)))) segs in
  let r' := match r with RSubject => RClip | RClip => RSubject | RDifference => RInverseDifference
                       | RInverseDifference => RDifference | x => x end in
  map l_seg (result_links fr r segs') = map l_seg (result_links fr r' segs) /\
  map (fun l => is_fill_top r (l_fill l)) (result_links fr r segs') =
  map (fun l => is_fill_top r' (l_fill l)) (result_links fr r' segs).
Proof. intro A. pose proof (swap_links fr r segs A) as H. destruct r; exact H. Qed.

(** ** C08: exactness of the intersection test. *)
Theorem C08_intersection_test i j s t r : wf_xseg s -> wf_xseg t -> s <> t -> 1 <= r ->
  (fst (cross_marks i j s t r) = [] <->
   forall q, on_seg s q -> on_seg t q -> is_end s q /\ is_end t q).
Proof. intros Ws Wt N R. exact (marks_exact i j s t r Ws Wt N R). Qed.
(** an end of one edge strictly inside the other edge is itself a split point of that edge *)
Theorem C08_end_inside i j s t r p : wf_xseg s -> wf_xseg t -> 1 <= r ->
  (p = sa t \/ p = sb t -> inside_seg s (qof p) -> In (i, p) (fst (cross_marks i j s t r))) /\
  (p = sa s \/ p = sb s -> inside_seg t (qof p) -> In (j, p) (fst (cross_marks i j s t r))).
Proof.
  intros Ws Wt R.
  assert (rnd : forall q, (on_seg s q -> on_seg t q -> is_end s q \/ is_end t q -> snd (cross_marks i j s t r) = false)).
  { intros q Os Ot En. destruct (snd (cross_marks i j s t r)) eqn:E; auto. exfalso.
    pose proof (marks_round i j s t r Ws Wt E) as P.
    pose proof (properly_meet _ _ P) as [M1 M2].
    pose proof (meet_unique s t q (properly_dirx _ _ P) Os Ot) as [U1 U2].
    destruct En as [En|En].
    - apply (proj2 (inside_comp s _ q (Qeq_sym _ _ U1) (Qeq_sym _ _ U2) M1)); auto.
    - apply (proj2 (inside_comp t _ q (Qeq_sym _ _ U1) (Qeq_sym _ _ U2) M2)); auto. }
  split; intros Hp I.
  - assert (En : is_end t (qof p)) by (destruct Hp as [-> | ->]; [left|right]; split; reflexivity).
    assert (Ot : on_seg t (qof p)) by (destruct Hp as [-> | ->]; [apply on_seg_end_a|apply on_seg_end_b]).
    pose proof (rnd _ (proj1 I) Ot (or_intror En)) as E.
    destruct (marks_complete i j s t r Ws Wt R _ E (proj1 I) Ot) as [K _].
    destruct (K (or_intror En) I) as (p' & Hp' & Im).
    assert (p = p') as -> by (eapply q_is_unique; [|exact Hp']; split; reflexivity). auto.
  - assert (En : is_end s (qof p)) by (destruct Hp as [-> | ->]; [left|right]; split; reflexivity).
    assert (Os : on_seg s (qof p)) by (destruct Hp as [-> | ->]; [apply on_seg_end_a|apply on_seg_end_b]).
    pose proof (rnd _ Os (proj1 I) (or_introl En)) as E.
    destruct (marks_complete i j s t r Ws Wt R _ E Os (proj1 I)) as [_ K].
    destruct (K (or_intror En) I) as (p' & Hp' & Im).
    assert (p = p') as -> by (eapply q_is_unique; [|exact Hp']; split; reflexivity). auto.
Qed.
Example C08_example :
  fst (cross_marks 0 1 (XS (Pt 0 0) (Pt 10 10)) (XS (Pt 0 10) (Pt 10 0)) 1) = [(0%nat, Pt 5 5); (1%nat, Pt 5 5)] /\
  fst (cross_marks 0 1 (XS (Pt 0 0) (Pt 10 0)) (XS (Pt 3 0) (Pt 4 7)) 1) = [(0%nat, Pt 3 0)] /\
  fst (cross_marks 0 1 (XS (Pt 0 0) (Pt 10 0)) (XS (Pt 3 0) (Pt 20 0)) 1) = [(1%nat, Pt 10 0); (0%nat, Pt 3 0)] /\
  fst (cross_marks 0 1 (XS (Pt 0 0) (Pt 10 0)) (XS (Pt 10 0) (Pt 20 0)) 1) = [].
Proof. vm_compute. auto. Qed.

(** ** C09: accuracy of the computed crossing point. *)
Lemma crossing_properly s t q : wf_xseg s -> wf_xseg t -> inside_seg s q -> inside_seg t q -> dirx s t <> 0 ->
  properly s t.
Proof.
  intros Ws Wt Is It D.
  destruct (cross_cases s t 1 Ws Wt) as [CL|NC TO|p Hp _ In|p Hp _ In|P]; auto; exfalso.
  - unfold colinear in CL. rewrite dirx_C in D. lia.
  - destruct (TO q (proj1 Is) (proj1 It)) as [E _]. exact (proj2 Is E).
  - assert (Ot : on_seg t (qof p)) by (destruct Hp as [-> | ->]; [apply on_seg_end_a|apply on_seg_end_b]).
    pose proof (meet_unique s t q D (proj1 Is) (proj1 It)) as [U1 U2].
    pose proof (meet_unique s t (qof p) D (proj1 In) Ot) as [V1 V2].
    apply (proj2 It). destruct Hp as [-> | ->]; [left|right]; split; rewrite ?U1, ?U2; [rewrite <- V1|rewrite <- V2|rewrite <- V1|rewrite <- V2]; reflexivity.
  - assert (Os : on_seg s (qof p)) by (destruct Hp as [-> | ->]; [apply on_seg_end_a|apply on_seg_end_b]).
    pose proof (meet_unique s t q D (proj1 Is) (proj1 It)) as [U1 U2].
    pose proof (meet_unique s t (qof p) D Os (proj1 In)) as [V1 V2].
    apply (proj2 Is). destruct Hp as [-> | ->]; [left|right]; split; rewrite ?U1, ?U2; [rewrite <- V1|rewrite <- V2|rewrite <- V1|rewrite <- V2]; reflexivity.
Qed.

Theorem C09_crossing_point s t q : wf_xseg s -> wf_xseg t -> bounded s -> bounded t ->
  (px (sb s) - px (sa s)) * (py (sb t) - py (sa t)) <> (py (sb s) - py (sa s)) * (px (sb t) - px (sa t)) ->
  inside_seg s q -> inside_seg t q ->
  (Qabs (qx (cross_point s t) - fst q) < 1)%Q /\ (Qabs (qy (cross_point s t) - snd q) < 1)%Q /\
  in_box s (cross_point s t) /\ in_box t (cross_point s t) /\
  (forall p, q_is q p -> cross_point s t = p).
Proof.
  intros Ws Wt Bs Bt D Is It.
  assert (D' : dirx s t <> 0) by (unfold dirx; lia).
  pose proof (crossing_properly s t q Ws Wt Is It D') as P.
  pose proof (meet_unique s t q D' (proj1 Is) (proj1 It)) as [U1 U2].
  destruct (cross_point_near s t Bs Bt P) as (N1 & N2 & B1 & B2).
  rewrite <- U1 in N1. rewrite <- U2 in N2. repeat split; auto; try apply B1; try apply B2.
  intros p [E1 E2]. rewrite E1 in N1. rewrite E2 in N2. unfold qx, qy in N1, N2.
  rewrite <- qz_sub in N1, N2. apply Qabs_Qlt_condition in N1, N2.
  destruct N1 as [A1 A2], N2 as [A3 A4].
  change (- (1))%Q with (inject_Z (-1)) in A1, A3. change 1%Q with (inject_Z 1) in A2, A4.
  rewrite <- Zlt_Qlt in A1, A2, A3, A4. apply pt_ext; lia.
Qed.
Example C09_example :
  let s := XS (Pt 0 0) (Pt 7 5) in let t := XS (Pt 0 5) (Pt 7 (-1)) in
  bounded s /\ bounded t /\ properly s t /\ cross_point s t = Pt 3 2.
Proof. unfold bounded, bounded_pt, properly. vm_compute. repeat split. Qed.

(** ** C10: no overflow. *)
Theorem C10_cross_point_no_overflow s t : bounded s -> bounded t -> properly s t ->
  cross_point_chk s t = Some (cross_point s t).
Proof. exact (cross_point_no_overflow s t). Qed.
(** the orientation and distance values computed from bounded points fit an i64 *)
Theorem C10_products_fit a b c d : bounded_pt a -> bounded_pt b -> bounded_pt c -> bounded_pt d ->
  let ok z := - 2 ^ 63 <= z < 2 ^ 63 in
  ok ((px b - px a) * (py c - py a)) /\ ok ((py b - py a) * (px c - px a)) /\ ok (cross3 a b c) /\
  ok (dot3 a b c d) /\ ok (sqr_dist a b).
Proof.
  unfold bounded_pt, cross3, dot3, sqr_dist. change (2 ^ 30) with 1073741824. change (2 ^ 63) with 9223372036854775808.
  intros [A1 A2] [B1 B2] [C1 C2] [D1 D2].
  assert (M : forall u v, Z.abs u <= 2147483646 -> Z.abs v <= 2147483646 -> Z.abs (u * v) <= 4611686009837453316) by (intros; nia).
  assert (P1 := M (px b - px a) (py c - py a) ltac:(lia) ltac:(lia)).
  assert (P2 := M (py b - py a) (px c - px a) ltac:(lia) ltac:(lia)).
  assert (P3 := M (px a - px b) (px d - px c) ltac:(lia) ltac:(lia)).
  assert (P4 := M (py a - py b) (py d - py c) ltac:(lia) ltac:(lia)).
  assert (P5 := M (px a - px b) (px a - px b) ltac:(lia) ltac:(lia)).
  assert (P6 := M (py a - py b) (py a - py b) ltac:(lia) ltac:(lia)).
  clear - P1 P2 P3 P4 P5 P6. cbv zeta. lia.
Qed.

(** ** C17: an even number of result edges meets in every vertex. *)
Theorem C17_even_degree segs fr r v : arrangement segs ->
  Nat.Even (length (filter (fun l => pt_eqb (l_a l) v || pt_eqb (l_b l) v) (result_links fr r segs))).
Proof. intro A. exact (result_even segs A fr r v). Qed.

(** ** C24: graph reuse. *)
Theorem C24_graph_reuse segs fr r : arrangement segs ->
  filter (fun l => is_included r (l_fill l)) (build_links is_included_filler segs (fill_boolean fr segs)) =
  result_links fr r segs.
Proof. intro A. exact (graph_reuse segs A fr r). Qed.

(** ** C25: string clipping, complementary filters. *)
(** a piece of line: some clip bit is set; [st], [sb]: subject filled above / below *)
Definition string_fill (st sb back fwd : bool) : fill_t :=
  N.lor (N.lor (b2n st) (N.shiftl (b2n sb) 1)) (N.shiftl (N.lor (b2n back) (N.shiftl (b2n fwd) 1)) 2).
Theorem C25_clip_complement st sb back fwd boundary :
  let f := string_fill st sb back fwd in
  let line := back || fwd in
  clip_included (CR false false) f = line && (st && sb) /\
  clip_included (CR false true) f = line && (st || sb) /\
  (line = true -> clip_included (CR true boundary) f = negb (clip_included (CR false boundary) f)) /\
  (line = false -> clip_included (CR true boundary) f = false /\ clip_included (CR false boundary) f = false).
Proof. destruct st, sb, back, fwd, boundary; vm_compute; repeat split; intros; discriminate || reflexivity. Qed.
Theorem C25_fill_values r this bot : (sclip this < 4)%N ->
  snd (add_and_fill_string r this bot) =
  string_fill (inside r (ssubj bot + ssubj this)) (inside r (ssubj bot)) (N.testbit (sclip this) 0) (N.testbit (sclip this) 1).
Proof.
  intro L. unfold add_and_fill_string, string_fill. simpl snd. rewrite !rule_bit_inside. f_equal. f_equal.
  assert (sclip this = 0 \/ sclip this = 1 \/ sclip this = 2 \/ sclip this = 3)%N as [->|[->|[->| ->]]] by lia; reflexivity.
Qed.

Print Assumptions C01_result_edges.
Print Assumptions C01_result_is_subset.
Print Assumptions C02_fill_flags.
Print Assumptions C03_add_contour_partial.
Print Assumptions C03_closed_nondegenerate.
Print Assumptions C03_repeated_first_point_refuted.
Print Assumptions C03_all_inputs_partial.
Print Assumptions C04_merge.
Print Assumptions C05_order_of_contours.
Print Assumptions C05_any_sort.
Print Assumptions C06_reverse_contour.
Print Assumptions C06_reverse_fill.
Print Assumptions C07_swap.
Print Assumptions C08_intersection_test.
Print Assumptions C08_end_inside.
Print Assumptions C09_crossing_point.
Print Assumptions C10_cross_point_no_overflow.
Print Assumptions C10_products_fit.
Print Assumptions C17_even_degree.
Print Assumptions C24_graph_reuse.
Print Assumptions C25_clip_complement.
Print Assumptions C25_fill_values.
