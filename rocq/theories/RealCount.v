(** * The winding number of what a stroke draws, counted by pieces. *)
From Verif Require Import Base Spec QLib ModelSegm SegmProofs SplitNear ModelMesh MeshProofs MeshStrip.
From Coq Require Import Reals Lra Psatz Qreals.
From Verif Require Import RealMesh RealJoin RealReach RealMiter RealWind RealMove RealCorner RealStroke RealPieces.
Open Scope Z_scope.

Lemma chain_pot {A} (w w' : A * A -> Z) (h : A -> Z) b : forall m a, (forall x y, In (x, y) (steps (a :: m ++ [b])) -> w (x, y) = w' (x, y) + h x - h y) ->
  zsum w (steps (a :: m ++ [b])) = zsum w' (steps (a :: m ++ [b])) + h a - h b.
Proof.
  induction m as [|c m IH]; intros a H.
  - cbn [app steps] in *. rewrite !zsum_cons. rewrite (H a b) by (left; auto). change (zsum w []) with 0. change (zsum w' []) with 0. lia.
  - cbn [app] in *. change (steps (a :: c :: m ++ [b])) with ((a, c) :: steps (c :: m ++ [b])) in *. rewrite !zsum_cons. rewrite (H a c) by (left; auto). rewrite IH; [lia|]. intros x y I. apply H. right. auto.
Qed.
Lemma segs_wind_app q a b : segs_wind q (a ++ b) = segs_wind q a + segs_wind q b.
Proof. unfold segs_wind. apply zsum_app. Qed.

Section Count.
  Variables (to_int : rpt -> pt) (j : line_join RF) (r : R) (q : qpt).
  Hypothesis Pr : (0 < r)%R.
  Notation ltop := (ltop to_int j r). Notation lbot := (lbot to_int j r).
  Notation la := (la r). Notation lb := (lb r). Notation ra := (ra r). Notation rb := (rb r).
  Notation sec := (fun e : rside => section_new RF r (fst e) (snd e)).
  Notation joinf := (stroke_join RF to_int r (join_normalize RF j)).
  Definition wi (e : rpt * rpt) : Z := edge_wind q (to_int (fst e), to_int (snd e)).
  Definition cl (a b : rpt) : Prop := ~ rwithin 2 (rz (to_int a)) (rz (to_int b)) (rq q).
  Definition far_segs (segs : list (segment cntO)) : Prop := forall s, In s segs -> ~ rwithin 2 (rz (fst (travel s))) (rz (snd (travel s))) (rq q).
  Lemma rwithin_sym d a b p : rwithin d a b p -> rwithin d b a p.
  Proof. intros (t & T & A & B). exists (1 - t)%R. split; [lra|]. split; [replace (fst p - (fst b + (1 - t) * (fst a - fst b)))%R with (fst p - (fst a + t * (fst b - fst a)))%R by ring; auto|replace (snd p - (snd b + (1 - t) * (snd a - snd b)))%R with (snd p - (snd a + t * (snd b - snd a)))%R by ring; auto]. Qed.
  Definition secw (w : rpt * rpt -> Z) (e : rside) : Z := w (lb e, la e) + w (ra e, rb e).
  Definition joinw (w : rpt * rpt -> Z) (e f : rside) : Z := - zsum w (steps (ltop e f)) - zsum w (steps (lbot e f)).
  Lemma chain_wi l : chain_wind q (map to_int l) = zsum wi (steps l).
  Proof. unfold chain_wind. rewrite steps_map. induction (steps l) as [|e m IH]; [reflexivity|]. cbn [map]. rewrite !zsum_cons, IH. reflexivity. Qed.
  Lemma sec_wind e : segs_wind q (add_section RF to_int (sec e)) = secw wi e.
  Proof. cbv beta. rewrite section_real. unfold add_section, segs_wind, secw, wi. cbn [s_btop s_atop s_abot s_bbot fst snd]. rewrite !zsum_cons, !travel_bold. change (zsum (fun s : segment cntO => edge_wind q (travel s)) []) with 0. rewrite Z.add_0_r. reflexivity. Qed.
  Lemma sec_clear e : far_segs (add_section RF to_int (sec e)) -> cl (lb e) (la e) /\ cl (ra e) (rb e).
  Proof.
    cbv beta. rewrite section_real. unfold add_section, far_segs. cbn [s_btop s_atop s_abot s_bbot]. intro H. split.
    - specialize (H _ (or_introl eq_refl)). rewrite travel_bold in H. exact H.
    - specialize (H _ (or_intror (or_introl eq_refl))). rewrite travel_bold in H. exact H.
  Qed.
  (** along a chain whose first point is clear *)
  Lemma chain_clear (l : list rpt) (P : pt -> pt -> Prop) : (forall a b, P a b -> ~ rwithin 2 (rz a) (rz b) (rq q)) ->
    (forall a b, In (a, b) (steps (map to_int l)) -> a = b \/ P a b \/ P b a) ->
    (forall a m, l = a :: m -> ~ rclose 2 (rq q) (rz (to_int a))) -> forall a b, In (a, b) (steps l) -> cl a b.
  Proof.
    intro HP. induction l as [|c [|d l] IH]; intros H H0 a b I; [destruct I|destruct I|]. change (steps (c :: d :: l)) with ((c, d) :: steps (d :: l)) in I.
    assert (Hd : cl c d). 
    { destruct (H (to_int c) (to_int d)) as [E|[E|E]]; [left; reflexivity| |apply HP; auto|intro K; apply (HP _ _ E), rwithin_sym, K].
      intros (t & T & A & B). rewrite E in A, B. apply (H0 c (d :: l) eq_refl). rewrite E. split; [replace (fst (rq q) - fst (rz (to_int d)))%R with (fst (rq q) - (fst (rz (to_int d)) + t * (fst (rz (to_int d)) - fst (rz (to_int d)))))%R by ring; auto|replace (snd (rq q) - snd (rz (to_int d)))%R with (snd (rq q) - (snd (rz (to_int d)) + t * (snd (rz (to_int d)) - snd (rz (to_int d)))))%R by ring; auto]. }
    destruct I as [E|I]; [injection E as <- <-; exact Hd|]. apply (IH (fun a b I => H a b (or_intror I))); auto.
    intros a' m E. injection E as <- <-. intro K. apply Hd. apply rwithin_b. exact K.
  Qed.
  Section Join.
    Variables (e f : rside).
    Hypothesis Ne : fst e <> snd e.
    Hypothesis Nf : fst f <> snd f.
    Hypothesis Ch : snd e = fst f.
    Lemma joined : exists js1 js2, (joinf (sec e) (sec f) = js1 ++ js2 \/ joinf (sec e) (sec f) = js2 ++ js1) /\ back js1 (map to_int (ltop e f)) /\ back js2 (map to_int (lbot e f)).
    Proof.
      pose proof (corner_joined to_int (fst e) (snd e) (snd f) r Ne) as H. rewrite Ch in H at 1. specialize (H Nf j). cbv beta. rewrite <- Ch. unfold ltop, lbot, RealPieces.la, RealPieces.lb, RealPieces.ra, RealPieces.rb, dir_of. rewrite <- Ch. exact H.
    Qed.
    Lemma join_wind : segs_wind q (joinf (sec e) (sec f)) = joinw wi e f.
    Proof.
      destruct joined as (js1 & js2 & E & [A _] & [B _]). unfold joinw. rewrite <- !chain_wi. specialize (A q). specialize (B q). destruct E as [-> | ->]; rewrite segs_wind_app; lia.
    Qed.
    Lemma join_clear : far_segs (joinf (sec e) (sec f)) -> cl (lb e) (la e) -> cl (ra f) (rb f) -> forall a b, In (a, b) (steps (ltop e f)) \/ In (a, b) (steps (lbot e f)) -> cl a b.
    Proof.
      intros F C1 C2. destruct joined as (js1 & js2 & E & [_ A] & [_ B]).
      assert (F' : forall s, In s js1 \/ In s js2 -> ~ rwithin 2 (rz (fst (travel s))) (rz (snd (travel s))) (rq q)).
      { intros s I. apply F. destruct E as [-> | ->]; apply in_or_app; tauto. }
      intros a b [I|I].
      - apply (chain_clear (ltop e f) (fun x y => In (x, y) (map travel js1))); auto.
        + intros x y J. apply in_map_iff in J as (s & Q & J). specialize (F' s (or_introl J)). rewrite Q in F'. exact F'.
        + intros x y J. destruct (A x y J); auto.
        + intros x m Q. unfold RealPieces.ltop in Q. injection Q as <- _. intro K. apply C1, rwithin_a, K.
      - apply (chain_clear (lbot e f) (fun x y => In (x, y) (map travel js2))); auto.
        + intros x y J. apply in_map_iff in J as (s & Q & J). specialize (F' s (or_intror J)). rewrite Q in F'. exact F'.
        + intros x y J. destruct (B x y J); auto.
        + intros x m Q. unfold RealPieces.lbot in Q. injection Q as <- _. intro K. apply C2, rwithin_a, K.
    Qed.
  End Join.
  (** the whole strip *)
  Lemma strip_wind : forall rest e, (forall f, In f (e :: rest) -> fst f <> snd f) -> (forall f g, followed (e :: rest) f g -> snd f = fst g) ->
    segs_wind q (strip RF sec (add_section RF to_int) joinf e rest) = stripz (secw wi) (joinw wi) e rest.
  Proof.
    induction rest as [|f rest IH]; intros e N Ch; cbn [strip stripz].
    - rewrite app_nil_r, sec_wind. lia.
    - rewrite !segs_wind_app, sec_wind. rewrite (join_wind e f); [|apply N; simpl; auto|apply N; simpl; auto|apply Ch, followed_hd]. rewrite (IH f); [lia|intros; apply N; right; auto|intros; apply Ch, followed_cons; auto].
  Qed.
  Lemma strip_clear : forall rest e, (forall f, In f (e :: rest) -> fst f <> snd f) -> (forall f g, followed (e :: rest) f g -> snd f = fst g) ->
    far_segs (strip RF sec (add_section RF to_int) joinf e rest) ->
    (forall f, In f (e :: rest) -> cl (lb f) (la f) /\ cl (ra f) (rb f)) /\
    (forall f g, followed (e :: rest) f g -> forall a b, In (a, b) (steps (ltop f g)) \/ In (a, b) (steps (lbot f g)) -> cl a b).
  Proof.
    induction rest as [|f rest IH]; intros e N Ch F; cbn [strip] in F.
    - split; [|intros f g (l & m & Q); destruct l as [|? [|]]; discriminate]. intros f [<-|[]]. apply sec_clear. intros s I. apply F. apply in_or_app; auto.
    - assert (He : cl (lb e) (la e) /\ cl (ra e) (rb e)) by (apply sec_clear; intros s I; apply F; apply in_or_app; auto).
      destruct (IH f) as [A B]; [intros; apply N; right; auto|intros; apply Ch, followed_cons; auto|intros s I; apply F; apply in_or_app; right; apply in_or_app; auto|]. split.
      + intros g [<-|I]; auto.
      + intros g h (l & m & Q). destruct l as [|x l].
        * cbn [app] in Q. injection Q as <- <- _. apply join_clear; [apply N; simpl; auto|apply N; simpl; auto|apply Ch, followed_hd| |apply He|apply A; simpl; auto]. intros s I. apply F. apply in_or_app. right. apply in_or_app. auto.
        * cbn [app] in Q. injection Q as _ Q. apply B. exists l, m. exact Q.
  Qed.

  (** ** Against the real picture *)
  Section Placed.
    Variables (s : R) (o p : rpt).
    Hypothesis Ps : (0 < s)%R.
    Hypothesis Pq : rplace s o p = rq q.
    Definition ok (a : rpt) : Prop := rclose 2 (rplace s o a) (rz (to_int a)).
    Definition hh (a : rpt) : Z := rwind (rq q) (rz (to_int a), rplace s o a).
    Lemma wi_real a b : cl a b -> ok a -> ok b -> wi (a, b) = rwind p (a, b) + hh a - hh b.
    Proof.
      intros C A B. unfold wi. cbn [fst snd]. rewrite edge_wind_real. pose proof (rquad 2 (rq q) (rz (to_int a)) (rz (to_int b)) (rplace s o a) (rplace s o b) A B C ltac:(lra)) as H.
      rewrite <- Pq in H at 1. rewrite rwind_place in H by auto. unfold hh. rewrite (rwind_anti _ (rplace s o a)), (rwind_anti _ (rplace s o b)). lia.
    Qed.
    Definition bo (e : rside) : Z := hh (lb e) - hh (rb e) - rwind p (rb e, lb e).
    Definition to (e : rside) : Z := hh (la e) - hh (ra e) + rwind p (la e, ra e).
    Lemma sec_real e : cl (lb e) (la e) -> cl (ra e) (rb e) -> ok (la e) -> ok (lb e) -> ok (ra e) -> ok (rb e) -> secw wi e = rect_wind r p e + bo e - to e.
    Proof. intros C1 C2 O1 O2 O3 O4. unfold secw. rewrite !wi_real by auto. unfold rect_wind, wind4, bo, to. lia. Qed.
    Lemma tris_pot y a m b : zsum (fun e => - rwind p e) (steps (a :: m ++ [b])) = tris p y (a :: m ++ [b]) + rwind p (y, a) - rwind p (y, b).
    Proof. unfold tris. apply (chain_pot _ _ (fun x => rwind p (y, x))). intros c d _. cbn [fst snd]. unfold wind3. rewrite (rwind_anti p c d), (rwind_anti p y c). lia. Qed.
    Lemma ctris_pot y a m b : zsum (rwind p) (steps (a :: m ++ [b])) = ctris p y (a :: m ++ [b]) - rwind p (y, a) + rwind p (y, b).
    Proof. unfold ctris. rewrite (chain_pot (rwind p) (fun e => wind3 p y (fst e) (snd e)) (fun x => - rwind p (y, x))); [lia|]. intros c d _. cbn [fst snd]. unfold wind3. rewrite (rwind_anti p y d). lia. Qed.
    Lemma zsum_opp {A} (f : A -> Z) l : zsum (fun x => - f x) l = - zsum f l.
    Proof. induction l as [|a l IH]; [reflexivity|]. rewrite !zsum_cons, IH. lia. Qed.
    Lemma through y w k : rwind p (off y (neg w) k, off y w k) = rwind p (off y (neg w) k, y) + rwind p (y, off y w k).
    Proof. apply rwind_split. unfold turn3, off, neg. cbn [fst snd]. ring. Qed.
    Lemma join_real e f : snd e = fst f -> (forall a b, In (a, b) (steps (ltop e f)) \/ In (a, b) (steps (lbot e f)) -> cl a b) -> (forall a, In a (ltop e f) \/ In a (lbot e f) -> ok a) ->
      joinw wi e f = tris p (snd e) (outer to_int j r e f) - inner r p e f - bo e + to f.
    Proof.
      intros Ch C O. unfold joinw. unfold RealPieces.ltop, RealPieces.lbot in *. set (lm := left_mids _ _ _ _ _ _) in *. set (rm := right_mids _ _ _ _ _ _) in *.
      assert (In12 : forall (l : list rpt) x y, In (x, y) (steps l) -> In x l /\ In y l).
      { clear. induction l as [|a [|b l] IH]; intros x y I; [destruct I|destruct I|]. change (steps (a :: b :: l)) with ((a, b) :: steps (b :: l)) in I. destruct I as [E|I]; [injection E as <- <-; simpl; auto|]. destruct (IH x y I). simpl in *. tauto. }
      assert (P1 : forall x y, In (x, y) (steps (lb e :: lm ++ [la f])) -> wi (x, y) = rwind p (x, y) + hh x - hh y) by (intros x y I; destruct (In12 _ _ _ I); apply wi_real; auto).
      assert (P2 : forall x y, In (x, y) (steps (ra f :: rm ++ [rb e])) -> wi (x, y) = rwind p (x, y) + hh x - hh y) by (intros x y I; destruct (In12 _ _ _ I); apply wi_real; auto).
      rewrite (chain_pot _ _ _ _ _ _ P1), (chain_pot _ _ _ _ _ _ P2).
      pose proof (tris_pot (snd e) (lb e) lm (la f)) as T1. pose proof (tris_pot (snd e) (ra f) rm (rb e)) as T2. rewrite zsum_opp in T1, T2.
      pose proof (corner_sum to_int j r e f p) as Cs. unfold RealPieces.ltop, RealPieces.lbot in Cs. fold lm rm in Cs.
      pose proof (through (snd e) (normal_of (dir_of e)) r) as U1. change (off (snd e) (neg (normal_of (dir_of e))) r) with (rb e) in U1. change (off (snd e) (normal_of (dir_of e)) r) with (lb e) in U1.
      pose proof (through (fst f) (normal_of (dir_of f)) r) as U2. change (off (fst f) (neg (normal_of (dir_of f))) r) with (ra f) in U2. change (off (fst f) (normal_of (dir_of f)) r) with (la f) in U2. rewrite <- Ch in U2.
      unfold bo, to. rewrite (rwind_anti p (ra f) (la f)). rewrite (rwind_anti p (ra f) (snd e)) in *. rewrite (rwind_anti p (rb e) (snd e)) in *.
      pose proof (rwind_anti p (ra f) (snd e)). pose proof (rwind_anti p (rb e) (snd e)). lia.
    Qed.
  End Placed.
  Section Whole.
    Variables (s : R) (o p : rpt).
    Hypothesis Ps : (0 < s)%R.
    Hypothesis Pq : rplace s o p = rq q.
    Notation okp := (ok s o).
    Notation total e rest := (stripz (rect_wind r p) (fun f g => tris p (snd f) (outer to_int j r f g) - inner r p f g) e rest).
    Variables (e : rside) (rest : list rside).
    Hypothesis N : forall f, In f (e :: rest) -> fst f <> snd f.
    Lemma strip_real : (forall f g, followed (e :: rest) f g -> snd f = fst g) ->
      far_segs (strip RF sec (add_section RF to_int) joinf e rest) ->
      (forall f, In f (e :: rest) -> okp (la f) /\ okp (lb f) /\ okp (ra f) /\ okp (rb f)) ->
      (forall f g, followed (e :: rest) f g -> forall a, In a (ltop f g) \/ In a (lbot f g) -> okp a) ->
      segs_wind q (strip RF sec (add_section RF to_int) joinf e rest) = total e rest + bo s o p (last rest e) - to s o p e.
    Proof.
      intros Ch F O1 O2. rewrite strip_wind by auto. destruct (strip_clear rest e N Ch F) as [C1 C2]. apply stripz_pot.
      - intros f I. destruct (C1 f I), (O1 f I) as (? & ? & ? & ?). apply sec_real; auto.
      - intros f g Fg. apply join_real; auto. apply C2; auto. apply O2; auto.
    Qed.
    Lemma cap_real y a b m js : forth js (map to_int (a :: m ++ [b])) -> far_segs js -> ~ rclose 2 (rq q) (rz (to_int a)) -> (forall x, In x (a :: m ++ [b]) -> okp x) ->
      segs_wind q js = ctris p y (a :: m ++ [b]) - rwind p (y, a) + rwind p (y, b) + hh s o a - hh s o b.
    Proof.
      intros [A B] F H0 O. rewrite A, chain_wi.
      assert (C : forall x z, In (x, z) (steps (a :: m ++ [b])) -> cl x z).
      { apply (chain_clear (a :: m ++ [b]) (fun x y => In (x, y) (map travel js))).
        - intros x z J. apply in_map_iff in J as (t & Q & J). specialize (F t J). rewrite Q in F. exact F.
        - intros x z J. destruct (B x z J); auto.
        - intros x l Q. injection Q as <- _. exact H0. }
      assert (In12 : forall (l : list rpt) x y, In (x, y) (steps l) -> In x l /\ In y l).
      { clear. induction l as [|a [|b l] IH]; intros x y I; [destruct I|destruct I|]. change (steps (a :: b :: l)) with ((a, b) :: steps (b :: l)) in I. destruct I as [E|I]; [injection E as <- <-; simpl; auto|]. destruct (IH x y I). simpl in *. tauto. }
      assert (P1 : forall x z, In (x, z) (steps (a :: m ++ [b])) -> wi (x, z) = rwind p (x, z) + hh s o x - hh s o z) by (intros x z I; destruct (In12 _ _ _ I); apply wi_real; auto).
      rewrite (chain_pot _ _ _ _ _ _ P1), (ctris_pot p y). lia.
    Qed.
    Lemma start_real c : cl (lb e) (la e) -> far_segs (add_to_start RF to_int (cap_points RF (cap_normalize RF c) r) (sec e)) -> (forall a, In a (cap_start c r e) -> okp a) ->
      segs_wind q (add_to_start RF to_int (cap_points RF (cap_normalize RF c) r) (sec e)) = ctris p (fst e) (cap_start c r e) + to s o p e.
    Proof.
      cbv beta. rewrite section_real. unfold add_to_start. cbn [s_dir s_a s_atop s_abot RF f_xy f_x f_y n_neg]. intros C F O.
      pose proof (forth_cap to_int (neg (dir_of e)) (fst e) (to_int (ra e)) (opt_points RF (cap_points RF (cap_normalize RF c) r)) (to_int (la e))) as Fo.
      rewrite cap_start_ends in O |- *. set (m := map (cap_pt _ _) _) in *.
      assert (Fo' : forth (cap_loop RF to_int (rot_vector RF (neg (dir_of e))) (fst e) (opt_points RF (cap_points RF (cap_normalize RF c) r)) (to_int (la e)) (to_int (ra e))) (map to_int (la e :: m ++ [ra e]))).
      { cbn [map]. rewrite map_app. unfold m. rewrite map_map. exact Fo. }
      pose proof (cap_real (fst e) (la e) (ra e) m _ Fo' F (fun K => C (rwithin_b _ _ _ _ K)) O) as H.
      pose proof (through p (fst e) (normal_of (dir_of e)) r) as U. change (off (fst e) (neg (normal_of (dir_of e))) r) with (ra e) in U. change (off (fst e) (normal_of (dir_of e)) r) with (la e) in U.
      unfold to. pose proof (rwind_anti p (ra e) (la e)). pose proof (rwind_anti p (ra e) (fst e)). etransitivity; [exact H|]. lia.
    Qed.
    Lemma end_real c : cl (ra e) (rb e) -> far_segs (add_to_end RF to_int (cap_points RF (cap_normalize RF c) r) (sec e)) -> (forall a, In a (cap_end c r e) -> okp a) ->
      segs_wind q (add_to_end RF to_int (cap_points RF (cap_normalize RF c) r) (sec e)) = ctris p (snd e) (cap_end c r e) - bo s o p e.
    Proof.
      cbv beta. rewrite section_real. unfold add_to_end. cbn [s_dir s_b s_btop s_bbot RF f_xy f_x f_y n_neg]. intros C F O.
      pose proof (forth_cap to_int (dir_of e) (snd e) (to_int (lb e)) (opt_points RF (cap_points RF (cap_normalize RF c) r)) (to_int (rb e))) as Fo.
      rewrite cap_end_ends in O |- *. set (m := map (cap_pt _ _) _) in *.
      assert (Fo' : forth (cap_loop RF to_int (rot_vector RF (dir_of e)) (snd e) (opt_points RF (cap_points RF (cap_normalize RF c) r)) (to_int (rb e)) (to_int (lb e))) (map to_int (rb e :: m ++ [lb e]))).
      { cbn [map]. rewrite map_app. unfold m. rewrite map_map. exact Fo. }
      pose proof (cap_real (snd e) (rb e) (lb e) m _ Fo' F (fun K => C (rwithin_b _ _ _ _ K)) O) as H.
      pose proof (through p (snd e) (normal_of (dir_of e)) r) as U. change (off (snd e) (neg (normal_of (dir_of e))) r) with (rb e) in U. change (off (snd e) (normal_of (dir_of e)) r) with (lb e) in U.
      unfold bo. pose proof (rwind_anti p (rb e) (snd e)). etransitivity; [exact H|]. lia.
    Qed.
  End Whole.
End Count.
