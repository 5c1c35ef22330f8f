(** * Model of the fill sweep: [fill/solver.rs], the strategies of [core/link.rs] and
    [geom/v_segment.rs]. *)
From Verif Require Export ModelSegm.
Open Scope Z_scope.

(** [segm/segment.rs:7]: [SegmentFill = u8]; [segm/segment.rs:9-21] the bit constants. *)
Definition fill_t := N.
Definition NONE : fill_t := 0%N.
Definition SUBJ_TOP : fill_t := 1%N.
Definition SUBJ_BOTTOM : fill_t := 2%N.
Definition CLIP_TOP : fill_t := 4%N.
Definition CLIP_BOTTOM : fill_t := 8%N.
Definition SUBJ_BOTH : fill_t := N.lor SUBJ_TOP SUBJ_BOTTOM.
Definition CLIP_BOTH : fill_t := N.lor CLIP_TOP CLIP_BOTTOM.
Definition BOTH_TOP : fill_t := N.lor SUBJ_TOP CLIP_TOP.
Definition BOTH_BOTTOM : fill_t := N.lor SUBJ_BOTTOM CLIP_BOTTOM.
Definition ALL : fill_t := N.lor SUBJ_BOTH CLIP_BOTH.

(** [(cond) as SegmentFill] *)
Definition b2n (b : bool) : N := if b then 1%N else 0%N.

(** the four tests of [core/link.rs:162-215] on one counter; [1 & x as u8] of an i32
    is the parity of x (two's complement). *)
Definition rule_bit (r : FillRule) (w : Z) : N :=
  match r with
  | EvenOdd => b2n (w mod 2 =? 1)
  | NonZero => b2n (negb (w =? 0))
  | Positive => b2n (w >? 0)
  | Negative => b2n (w <? 0)
  end.

(** [core/link.rs:162-220]: [EvenOddStrategy .. NegativeStrategy :: add_and_fill]. *)
Definition add_and_fill_bool (r : FillRule) (this bot : cntB) : cntB * fill_t :=
  let top := wc_add bot this in
  let subj_top := rule_bit r (subj top) in
  let subj_bot := rule_bit r (subj bot) in
  let clip_top := rule_bit r (clip top) in
  let clip_bot := rule_bit r (clip bot) in
  (top, N.lor (N.lor (N.lor subj_top (N.shiftl subj_bot 1)) (N.shiftl clip_top 2)) (N.shiftl clip_bot 3)).

(** [core/link.rs:227-285]: the [..StrategyString :: add_and_fill]. *)
Definition add_and_fill_string (r : FillRule) (this bot : cntS) : cntS * fill_t :=
  let top := CS (ssubj bot + ssubj this) 0%N in
  let subj_top := rule_bit r (ssubj top) in
  let subj_bot := rule_bit r (ssubj bot) in
  (top, N.lor (N.lor subj_top (N.shiftl subj_bot 1)) (N.shiftl (sclip this) 2)).

(** [geom/v_segment.rs:17-24] [is_under_segment_order] = [Ord for VSegment] *)
Definition vseg_cmp (s o : xseg) : comparison :=
  match pt_cmp (sa s) (sa o) with
  | Lt => clock_order (sa s) (sa o) (sb s)
  | Eq => clock_order (sa s) (sb o) (sb s)
  | Gt => clock_order (sa o) (sb o) (sa s)
  end.

(** [geom/v_segment.rs:26-32] *)
Definition under_point_order (s : xseg) (p : pt) : comparison := clock_order (sa s) p (sb s).

Section Sweep.
  Context {C : Type} {WC : WindingCount C}.
  Variable aff : C -> C -> C * fill_t.   (* FillStrategy::add_and_fill this bot *)

  (** i_tree [KeyExpList]/[KeyExpTree] as an ordered association list, smallest key
      (lowest segment) first; both containers have the same contract. *)
  Definition scan_t := list (xseg * C).

  (** entries whose [expiration() = b.x] is not after [time] are gone. *)
  Definition expire (time : Z) (s : scan_t) : scan_t :=
    filter (fun e => time <? px (sb (fst e))) s.

  (** [first_less_or_equal_by]: value of the last entry that is not [Greater]. *)
  Fixpoint find_le (f : xseg -> comparison) (d : C) (s : scan_t) : C :=
    match s with
    | [] => d
    | (k, v) :: r => match f k with Gt => d | _ => find_le f v r end
    end.

  (** [insert]: ordered insertion by [VSegment::cmp]. *)
  Fixpoint scan_insert (k : xseg) (v : C) (s : scan_t) : scan_t :=
    match s with
    | [] => [(k, v)]
    | (k', v') :: r => match vseg_cmp k k' with
                       | Lt => (k, v) :: (k', v') :: r
                       | _ => (k', v') :: scan_insert k v r
                       end
    end.

  Notation iseg := (nat * segment C)%type.

  (** [fill/solver.rs:44-60]: consecutive segments with the same start point are handled together. *)
  Fixpoint group_starts (l : list iseg) : list (pt * list iseg) :=
    match l with
    | [] => []
    | s :: r =>
        match group_starts r with
        | (p, g) :: gs => if pt_eqb (sa (sx (snd s))) p then (p, s :: g) :: gs
                          else (sa (sx (snd s)), [s]) :: (p, g) :: gs
        | [] => [(sa (sx (snd s)), [s])]
        end
    end.

  (** [fill/solver.rs:62-64]: [sort_by(|s0, s1| clock_order_point(p, s1.point, s0.point))] *)
  Definition angle_leb (p : pt) (s0 s1 : iseg) : bool :=
    match clock_order p (sb (sx (snd s1))) (sb (sx (snd s0))) with Gt => false | _ => true end.

  (** [fill/solver.rs:70-77] *)
  Fixpoint sweep_group (p : pt) (buf : list iseg) (sum : C) (scan : scan_t)
    : list (nat * fill_t) * scan_t :=
    match buf with
    | [] => ([], scan)
    | (i, s) :: r =>
        let '(sum', fill) := aff (sc s) sum in
        let scan' := if is_not_vertical (sx s)
                     then scan_insert (sx s) sum' (expire (px p) scan) else scan in
        let '(out, scan'') := sweep_group p r sum' scan' in
        ((i, fill) :: out, scan'')
    end.

  (** [fill/solver.rs:44-80], the main loop. *)
  Fixpoint sweep (gs : list (pt * list iseg)) (scan : scan_t) : list (nat * fill_t) :=
    match gs with
    | [] => []
    | (p, g) :: rest =>
        let buf := isort (angle_leb p) g in
        let scan0 := expire (px p) scan in
        let sum := find_le (fun s => under_point_order s p) (wc_new 0 0) scan0 in
        let '(out, scan') := sweep_group p buf sum scan0 in
        out ++ sweep rest scan'
    end.

  (** [result[index] = fill] *)
  Fixpoint set_nth {A} (i : nat) (x : A) (l : list A) : list A :=
    match l, i with
    | [], _ => []
    | _ :: r, O => x :: r
    | y :: r, S j => y :: set_nth j x r
    end.

  Definition enum {A} (l : list A) : list (nat * A) := combine (seq 0 (length l)) l.

  (** [fill/solver.rs:34-83] [solve] *)
  Definition fill_solve (segs : list (segment C)) : list fill_t :=
    fold_left (fun res w => set_nth (fst w) (snd w) res)
              (sweep (group_starts (enum segs)) [])
              (repeat NONE (length segs)).
End Sweep.

(** [core/link.rs:86-104] *)
Definition fill_boolean (r : FillRule) : list (segment cntB) -> list fill_t :=
  fill_solve (add_and_fill_bool r).
Definition fill_string (r : FillRule) : list (segment cntS) -> list fill_t :=
  fill_solve (add_and_fill_string r).
