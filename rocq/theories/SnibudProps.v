(* C87: backward Dubins paths. *)
From Coq Require Import Reals ZArith List Bool Lia Lra.
From Verif Require Import Base XReal PolyProofs CurvModel CurvSpec CurvProofs CurvProofs2 CurvProofs3 AngleProofs CurvProofs4
  DubinsModel DubinsSpec DubinsProofs DubinsProofs2 DubinsProofs3 DubinsProofs4 DubinsProps SnibudModel.
Import ListNotations.
Open Scope R_scope.

Lemma linked_app ps1 ps2 q q' : linked q (ps1 ++ ps2) q' <-> exists m, linked q ps1 m /\ linked m ps2 q'.
Proof.
  revert q. induction ps1 as [|p ps IH]; intros q; cbn [app linked].
  - split; [intros H; exists q; auto | intros [m [-> H]]; exact H].
  - rewrite IH. split.
    + intros [E [m [H1 H2]]]. exists m. auto.
    + intros [m [[E H1] H2]]. split; [exact E|]. exists m. auto.
Qed.
Lemma linked_reverse ps q q' : linked q ps q' -> linked q' (vector_reverse ps) q.
Proof.
  unfold vector_reverse. revert q. induction ps as [|p ps IH]; intros q; cbn [linked rev map].
  - intros ->. reflexivity.
  - intros [<- H]. rewrite map_app. apply linked_app. exists (p_end p). split; [exact (IH _ H)|].
    cbn. split; reflexivity.
Qed.
Lemma total_reverse f g ps : (forall p, g (cc_reverse p) = f p) -> total g (vector_reverse ps) = total f ps.
Proof.
  intros H. unfold vector_reverse, total. induction ps as [|p ps IH]; [reflexivity|].
  cbn [rev map fold_right]. rewrite map_app, fold_right_app. cbn [map fold_right]. rewrite <- IH, H.
  generalize (map cc_reverse (rev ps)) as l. induction l as [|a l IHl]; cbn [fold_right]; [lra|]. rewrite IHl. lra.
Qed.

(* driving backward is driving forward the other way *)
Lemma rolls_shift v k m l : rolls v k m -> rolls v k (fun t => m (t + l)).
Proof.
  intros H t. destruct (H (t + l)) as [w [[D1 [D2 [D3 [D4 D5]]]] W]]. exists w. split; [|exact W].
  assert (S : forall f x, derivable_pt_lim f (t + l) x -> derivable_pt_lim (fun u => f (u + l)) t x).
  { intros f x D. replace x with (x * 1) by ring. apply (derivable_pt_lim_comp (fun u => u + l) f); [|exact D].
    replace 1 with (1 + 0) by ring. apply (derivable_pt_lim_plus id (fct_cte l)); [apply derivable_pt_lim_id | apply derivable_pt_lim_const]. }
  split; [exact (S _ _ D1)|]. split; [exact (S _ _ D2)|]. split; [exact (S _ _ D3)|]. split; [exact (S _ _ D4)|].
  intros k0. exact (S _ _ (D5 k0)).
Qed.
Lemma drives_back k l q q' : drives k (- l) q q' -> drives k l q' q.
Proof.
  intros [m [H [H0 H1]]]. exists (fun t => m (t + - l)). split; [apply rolls_shift, H|].
  split; [rewrite Rplus_0_l; exact H1 | rewrite Rplus_opp_r; exact H0].
Qed.
Definition back_word (w : word) : word :=
  match w with LSR => RSL | RSL => LSR | w => w end.
Lemma word_back rho w l1 l2 l3 q q' : drives_word rho (dirdata w) [- l1; - l2; - l3] q q' ->
  drives_word rho (dirdata (back_word w)) [l3; l2; l1] q' q.
Proof.
  destruct w; cbn [dirdata back_word drives_word]; intros [a [H1 [b [H2 [c [H3 E]]]]]];
  exists b; (split; [|exists a; split; [apply drives_back, H2 | exists q; split; [apply drives_back, H1 | repeat split]]]);
  apply drives_back in H3; destruct H3 as [m [R [M0 Ml]]]; exists m; (split; [exact R|]; split; [|exact Ml]);
  unfold same_place in *; destruct M0 as [-> [-> [-> ->]]]; exact E.
Qed.

(* C87: the path goes from one configuration to the other along arcs and
   segments driven backward whose curvature is at most 1 / rho. *)
Theorem C87_reaches dist rho ws q1 q2 : 0 < rho -> (forall a b, 0 <= dist a b) -> can_steer rho ws ->
  unit_heading q1 -> unit_heading q2 -> ~ same_place q1 q2 ->
  exists ps q', snibud_steer dist rho ws q1 q2 = Ok ps /\ linked q' ps q2 /\ same_but (map w_rank ws) q' q1 /\
    Forall (fun p => built p /\ p_t0 p = 0 /\ - p_t1 p <= p_cl p <= 0 /\
              (p_kappa p = 1 / rho \/ p_kappa p = 0 \/ p_kappa p = - (1 / rho))) ps.
Proof.
  intros Hr Hd Hw U1 U2 N. unfold snibud_steer.
  set (x := dist _ _). assert (Hx : 0 <= x) by apply Hd.
  assert (N' : ~ same_place q2 q1) by (intros [A [B [C D]]]; apply N; repeat split; symmetry; assumption).
  destruct (C80_reaches (fun _ _ => x) rho ws q2 q1 Hr ltac:(intros; exact Hx) Hw U2 U1 N') as [ps [q' [E [Lk [S F]]]]].
  unfold dubins_steer in E. rewrite E. cbn [bind]. exists (vector_reverse ps), q'. split; [reflexivity|].
  split; [exact (linked_reverse _ _ _ Lk)|]. split; [exact S|].
  unfold vector_reverse. rewrite Forall_map. apply Forall_rev. revert F. apply Forall_impl.
  intros p [B [T0 [Cl K]]]. split; [apply built_reverse, B|]. split; [reflexivity|]. split; [|exact K].
  cbn [cc_reverse p_cl p_t1]. unfold param_length. lra.
Qed.
(* The other joints move in proportion to the length driven. *)
Theorem C87_other_joints dist rho ws q1 q2 ps k : 0 < rho -> (forall a b, 0 <= dist a b) -> can_steer rho ws ->
  unit_heading q1 -> unit_heading q2 -> ~ In k (map w_rank ws) ->
  snibud_steer dist rho ws q1 q2 = Ok ps ->
  along (fun p => - p_cl p) (fun s => cj q1 k + s / total (fun p => - p_cl p) ps * (cj q2 k - cj q1 k)) k 0 ps.
Proof.
  intros Hr Hd Hw U1 U2 Hk E. unfold snibud_steer in E. set (x := dist _ _) in E. assert (Hx : 0 <= x) by apply Hd.
  destruct (dubins_path rho ws x q2 q1) as [ds| | |] eqn:Ed; cbn [bind] in E; try discriminate. injection E as <-.
  pose proof (C80_other_joints rho ws x q2 q1 ds k Hr Hx Hk Ed) as A.
  destruct (C81_length rho ws x q2 q1 ds Hr Hx Hw U2 U1 Ed) as [_ T].
  rewrite (total_reverse p_cl (fun p => - p_cl p)) by (intros p; cbn; ring).
  assert (N' : ~ same_place q2 q1).
  { intros P. pose proof (C80_same_place_refuted (fun _ _ => x) rho ws q2 q1 Hr U2 U1 P) as K. unfold dubins_steer in K. congruence. }
  destruct (path_ok rho ws x q2 q1 Hr Hx Hw U2 U1 N') as [ds' [q' [al [be [d [w [[[t p] q] [E' [_ [_ [Lk [_ [_ [_ [[_ [_ [_ [Cl _]]]] _]]]]]]]]]]]]]]].
  rewrite Ed in E'. injection E' as <-. destruct ds as [|p1 [|p2 [|p3 [|]]]]; try discriminate.
  clear Cl Ed. unfold vector_reverse. cbn [rev app map]. cbn [along linked] in A, Lk |- *.
  destruct A as [A1 [A2 [A3 _]]], Lk as [L1 [L2 [L3 _]]]. unfold total in *. cbn [fold_right cc_reverse p_end p_cl] in *.
  rewrite L3, L2, L1, A1, A2. repeat split; field; lra.
Qed.
(* The range of parameters is the length driven plus the distance between the
   other degrees of freedom. *)
Theorem C87_length dist rho ws q1 q2 ps : 0 < rho -> (forall a b, 0 <= dist a b) -> can_steer rho ws ->
  unit_heading q1 -> unit_heading q2 -> snibud_steer dist rho ws q1 q2 = Ok ps ->
  exists qEnd, same_cfg qEnd {| cx := cx q1; cy := cy q1; cc := cc q1; cs := cs q1; cj := cj qEnd |} /\
    (forall k, In k (map w_rank ws) -> cj qEnd k = cj q1 k) /\ (forall k, ~ In k (map w_rank ws) -> cj qEnd k = cj q2 k) /\
    total p_t1 ps = total (fun p => - p_cl p) ps + dist q1 qEnd.
Proof.
  intros Hr Hd Hw U1 U2 E. unfold snibud_steer in E.
  set (qEnd := {| cx := cx q1; cy := cy q1; cc := cc q1; cs := cs q1;
                 cj := set_all (map (fun w => (w_rank w, cj q1 (w_rank w))) ws) (cj q2) |}) in E.
  exists qEnd. split; [repeat split|]. split; [|split].
  - cbn [qEnd cj]. clear. generalize (cj q2) as f. induction ws as [|w l IH]; intros f k; [intros []|].
    cbn [map set_all]. intros H. destruct (in_dec Nat.eq_dec k (map w_rank l)) as [I|I]; [apply IH, I|].
    destruct H as [<-|H]; [|contradiction]. clear IH.
    assert (G : forall g, set_all (map (fun w0 => (w_rank w0, cj q1 (w_rank w0))) l) g (w_rank w) = g (w_rank w)).
    { induction l as [|w' l IH]; intros g; [reflexivity|]. cbn [map set_all]. rewrite IH by (intros H; apply I; right; exact H).
      unfold upd. destruct (Nat.eqb_spec (w_rank w) (w_rank w')) as [Q|]; [exfalso; apply I; left; symmetry; exact Q | reflexivity]. }
    rewrite G. unfold upd. rewrite Nat.eqb_refl. reflexivity.
  - cbn [qEnd cj]. clear. generalize (cj q2) as f. induction ws as [|w l IH]; intros f k I; [reflexivity|].
    cbn [map set_all]. rewrite IH by (intros H; apply I; right; exact H).
    unfold upd. destruct (Nat.eqb_spec k (w_rank w)) as [Q|]; [exfalso; apply I; left; symmetry; exact Q | reflexivity].
  - destruct (dubins_path rho ws (dist q1 qEnd) q2 q1) as [ds| | |] eqn:Ed; cbn [bind] in E; try discriminate. injection E as <-.
    assert (T0 : map p_t0 ds = [0; 0; 0]).
    { assert (N' : ~ same_place q2 q1).
      { intros P. pose proof (C80_same_place_refuted (fun _ _ => dist q1 qEnd) rho ws q2 q1 Hr U2 U1 P) as K. unfold dubins_steer in K. congruence. }
      destruct (path_ok rho ws (dist q1 qEnd) q2 q1 Hr (Hd _ _) Hw U2 U1 N') as [ds' [q' [al [be [d [w [[[t p] q] [E' [_ [_ [_ [_ [_ [_ [[_ [_ [_ [_ [T0 _]]]]] _]]]]]]]]]]]]]]].
      rewrite Ed in E'. injection E' as <-. exact T0. }
    destruct (C81_length rho ws _ q2 q1 ds Hr (Hd q1 qEnd) Hw U2 U1 Ed) as [T _].
    rewrite (total_reverse p_cl (fun p => - p_cl p)) by (intros p; cbn; ring). rewrite <- T.
    destruct ds as [|p1 [|p2 [|p3 [|]]]]; try discriminate. injection T0 as A B C.
    unfold vector_reverse, total. cbn [rev app map fold_right cc_reverse p_t1]. unfold param_length. rewrite A, B, C. ring.
Qed.
(* No path driven backward along one of Dubins' words is shorter; same
   restriction as for Dubins paths on words of three arcs. *)
Theorem C87_shortest_partial dist rho ws q1 q2 ps : 0 < rho -> (forall a b, 0 <= dist a b) -> can_steer rho ws ->
  unit_heading q1 -> unit_heading q2 -> snibud_steer dist rho ws q1 q2 = Ok ps ->
  forall w l1 l2 l3, 0 <= l1 -> 0 <= l2 -> 0 <= l3 ->
    (w = RLR \/ w = LRL -> PI * rho <= l2 < 2 * PI * rho) ->
    drives_word rho (dirdata w) [- l1; - l2; - l3] q1 q2 -> total (fun p => - p_cl p) ps <= l1 + l2 + l3.
Proof.
  intros Hr Hd Hw U1 U2 E w l1 l2 l3 H1 H2 H3 Hm D. unfold snibud_steer in E. set (x := dist _ _) in E. assert (Hx : 0 <= x) by apply Hd.
  destruct (dubins_path rho ws x q2 q1) as [ds| | |] eqn:Ed; cbn [bind] in E; try discriminate. injection E as <-.
  rewrite (total_reverse p_cl (fun p => - p_cl p)) by (intros p; cbn; ring). apply word_back in D.
  replace (l1 + l2 + l3) with (l3 + l2 + l1) by ring.
  refine (C81_shortest_partial rho ws x q2 q1 ds Hr Hx Hw U2 U1 Ed (back_word w) l3 l2 l1 H3 H2 H1 _ D).
  intros Hb. apply Hm. destruct w; cbn in Hb; auto; destruct Hb; discriminate.
Qed.
(* Steering to the same position and heading divides zero by zero. *)
Theorem C87_same_place_refuted dist rho ws q1 q2 : 0 < rho -> unit_heading q1 -> unit_heading q2 -> same_place q1 q2 ->
  snibud_steer dist rho ws q1 q2 = UB.
Proof.
  intros Hr U1 U2 [A [B [C D]]]. unfold snibud_steer. set (x := dist _ _).
  pose proof (C80_same_place_refuted (fun _ _ => x) rho ws q2 q1 Hr U2 U1) as K. unfold dubins_steer in K.
  rewrite K by (repeat split; symmetry; assumption). reflexivity.
Qed.

(* five metres back *)
Example C87_example : exists ps q', snibud_steer (fun _ _ => 1) 2 [front] q_5 q_0 = Ok ps /\
  linked q' ps q_0 /\ same_but [0%nat] q' q_5 /\ total (fun p => - p_cl p) ps <= 5 /\ total p_t1 ps <= 6.
Proof.
  assert (U0 : unit_heading q_0) by (unfold unit_heading; cbn; ring).
  assert (U5 : unit_heading q_5) by (unfold unit_heading; cbn; ring).
  assert (N : ~ same_place q_5 q_0) by (intros [X _]; cbn in X; lra).
  assert (Hd : forall a b : cfg, 0 <= (fun _ _ : cfg => 1) a b) by (intros; lra).
  destruct (C87_reaches (fun _ _ => 1) 2 [front] q_5 q_0 ltac:(lra) Hd front_steer U5 U0 N) as [ps [q' [E [Lk [S _]]]]].
  exists ps, q'. split; [exact E|]. split; [exact Lk|]. split; [exact S|].
  assert (T : total (fun p => - p_cl p) ps <= 5).
  { replace 5 with (0 + 5 + 0) by ring.
    apply (C87_shortest_partial (fun _ _ => 1) 2 [front] q_5 q_0 ps ltac:(lra) Hd front_steer U5 U0 E LSL 0 5 0); try lra.
    + intros [H|H]; discriminate.
    + cbn [dirdata drives_word]. rewrite Ropp_0.
      exists q_5. split; [apply drives_arc, arc_0|]. exists q_0. split.
      * apply drives_arc. unfold arc, arc_x, arc_y, arc_c, arc_s. destruct (reqb_spec 0 0); [|lra].
        rewrite Rmult_0_l, cos_0, sin_0. cbn. repeat split; ring.
      * exists q_0. split; [apply drives_arc, arc_0 | apply place_refl]. }
  split; [exact T|].
  destruct (C87_length (fun _ _ => 1) 2 [front] q_5 q_0 ps ltac:(lra) Hd front_steer U5 U0 E) as [_ [_ [_ [_ ->]]]]. lra.
Qed.

Print Assumptions C87_reaches.
Print Assumptions C87_other_joints.
Print Assumptions C87_length.
Print Assumptions C87_shortest_partial.
Print Assumptions C87_same_place_refuted.
