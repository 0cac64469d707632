(* C88: projection of a path by pieces of Hermite curves. *)
From Coq Require Import Reals List Bool Lra Lia.
From Verif Require Import Base XReal PolyProofs SplineModel RecHermModel RecHermSpec RecHermProofs.
Import ListNotations.
Open Scope R_scope.

(* On success the pieces follow each other from the beginning to the end of
   the path, and each of them is short. *)
Theorem C88_projects n k eps M beta fuel i l :
  sound k -> proper_input k i ->
  project n k eps M beta fuel i = Ok (true, Pieces l) ->
  chain (in_init i) l (in_end i) /\ Forall (good_piece n k (2 * eps / M)) l.
Proof.
  intros Sd P H. destruct (project_inv n k _ _ _ _ _ _ _ Sd P H) as [[E _] | [[E _] | [l' [q [_ [C [F [K [[= <-] | [E _]]]]]]]]]]; try discriminate.
  split; [rewrite <- (K eq_refl); exact C|]. revert F. apply Forall_impl. intros p. apply fine_good.
Qed.

(* If M bounds the variations of a constraint and the satisfied configurations
   are those where it is at most eps, it is less than 2 eps all along the
   result, also between the configurations that were projected. *)
Theorem C88_error n k eps M beta fuel i ok l f :
  sound k -> proper_input k i -> 0 < M -> lipschitz n M f ->
  (forall q, k_sat k q = true -> Rabs (f q) <= eps) ->
  project n k eps M beta fuel i = Ok (ok, Pieces l) ->
  Forall (fun p => forall t, 0 <= t <= 1 -> Rabs (f (curve p t)) < 2 * eps) l.
Proof.
  intros Sd P HM Hf Hs H. destruct (project_inv n k _ _ _ _ _ _ _ Sd P H) as [[E _] | [[E _] | [l' [q [_ [C [F [K [[= <-] | [E _]]]]]]]]]]; try discriminate.
  revert F. apply Forall_impl. intros p Fp t Ht. destruct (fine_good _ _ _ _ Fp) as [_ S0 S1 _ N]. specialize (N t Ht).
  pose proof (Hf (curve p t) (h_init p)) as L0. pose proof (Hf (curve p t) (h_end p)) as L1.
  set (d0 := norm n (vminus (curve p t) (h_init p))) in *. set (d1 := norm n (vminus (curve p t) (h_end p))) in *.
  assert (MN : M * d0 + M * d1 < 2 * eps).
  { replace (M * d0 + M * d1) with (M * (d0 + d1)) by ring. replace (2 * eps) with (M * (2 * eps / M)) by (field; lra). apply Rmult_lt_compat_l; assumption. }
  pose proof (Hs _ S0) as B0. pose proof (Hs _ S1) as B1.
  revert L0 L1 B0 B1. unfold Rabs. repeat destruct Rcase_abs; intros; lra.
Qed.

(* For a Hermite path, or a path which is not an interpolation, the direction
   of the velocity is the same on both sides of every junction; the direction
   at the ends of a Hermite path is kept. *)
Theorem C88_smooth n k eps M beta fuel i l ok :
  sound k -> proper_input k i -> (forall a x, i <> IPoints a x) ->
  project n k eps M beta fuel i = Ok (ok, Pieces l) ->
  same_directions l /\
  forall p, i = IHermite p ->
    (forall p', head l = Some p' -> parallel (velocity_at p' 0) (velocity_at p 0)) /\
    (ok = true -> l <> [] -> parallel (velocity_at (last l p) 1) (velocity_at p 1)).
Proof.
  intros Sd P NI H. destruct (project_inv n k _ _ _ _ _ _ _ Sd P H) as [[E _] | [[E _] | [l' [q [Lo [C [F [K [[= <-] | [E _]]]]]]]]]]; try discriminate.
  assert (S1 : k_sat k (in_end i) = true).
  { unfold project in H. destruct (k_sat k (in_end i)); [reflexivity | discriminate]. }
  destruct (pieces_usable n k i P S1) as [U _]. destruct i as [p|a x|a b]; [| exfalso; exact (NI a x eq_refl) |].
  - cbn [pieces] in *. inversion U as [|? ? Up _]; subst. destruct (loop_single n k Sd _ _ _ _ _ _ Up Lo) as [D [St En]]. split; [exact D|].
    intros p0 [= <-]. destruct Up as [R _]. split.
    + intros p' Hp'. destruct l as [|p1 l]; [discriminate|]. injection Hp' as ->. inversion F as [|? ? [R' _ _ _ _] _]; subst.
      destruct St as [a [Ha St]]. exists a, 1. split; [exact Ha|]. split; [lra|]. intros d.
      rewrite (proj1 (velocity_ends _ d R')), (proj1 (velocity_ends _ d R)), St. ring.
    + intros Ok1 Nl. specialize (En Ok1). clear - En F Nl R. induction l as [|p1 [|p2 l] IH]; [contradiction | |].
      * inversion F as [|? ? [R' _ _ _ _] _]; subst. destruct En as [a [Ha St]]. exists a, 1. split; [exact Ha|]. split; [lra|]. intros d. cbn [last].
        rewrite (proj2 (velocity_ends _ d R')), (proj2 (velocity_ends _ d R)), St. ring.
      * inversion F; subst. apply IH; first [assumption | discriminate | exact En].
  - cbn [pieces] in *. split; [|intros p E; discriminate]. inversion U as [|? ? Up _]; subst.
    destruct (steer n k a b) as [p|]; [|cbn in Lo; discriminate Lo]. exact (proj1 (loop_single n k Sd _ _ _ _ _ _ Up Lo)).
Qed.

(* On failure what is written starts where the path starts and is made of
   short pieces. *)
Theorem C88_fails n k eps M beta fuel i w :
  sound k -> proper_input k i -> k_sat k (in_end i) = true ->
  project n k eps M beta fuel i = Ok (false, w) ->
  w = Beginning \/ exists l q, w = Pieces l /\ l <> [] /\ chain (in_init i) l q /\ Forall (good_piece n k (2 * eps / M)) l.
Proof.
  intros Sd P S1 H. destruct (project_inv n k _ _ _ _ _ _ _ Sd P H) as [[_ [_ E]] | [[_ [E _]] | [l' [q [Lo [C [F [K [E | [E _]]]]]]]]]];
    [rewrite S1 in E; discriminate | discriminate | | left; exact E].
  right. exists l', q. split; [exact E|]. split; [|split; [exact C|]].
  - intros ->. subst w. unfold project in H. rewrite S1 in H. cbn [negb] in H. destruct (k_dim0 k); [discriminate|]. rewrite Lo in H. discriminate.
  - revert F. apply Forall_impl. intros p. apply fine_good.
Qed.

(* With beta < 1 the projector always ends. *)
Theorem C88_terminates n k eps M beta i :
  sound k -> proper_input k i -> satisfied_points k i -> 0 < eps -> 0 < M -> / 2 <= beta < 1 ->
  exists pr N r, projector n k eps M beta = Ok pr /\ forall fuel, (N <= fuel)%nat -> pr fuel i = Ok r.
Proof.
  intros Sd P Pt He HM Hb. unfold projector. destruct (rltb_spec beta (/ 2)); [lra|]. destruct (rltb_spec 1 beta); [lra|]. cbn [orb].
  exists (project n k eps M beta). unfold project. destruct (k_sat k (in_end i)) eqn:S1; cbn [negb]; [|exists O, (false, Nothing); auto].
  destruct (k_dim0 k); [exists O, (true, Same); auto|].
  destruct (pieces_usable n k i P S1) as [U _].
  assert (NN : Forall (fun o => o <> None) (pieces n k i)).
  { destruct i as [p|a l|a b]; cbn [pieces satisfied_points in_end] in *.
    - constructor; [discriminate | constructor].
    - clear - Pt. destruct Pt as [A B]. revert a A. induction B as [|b l Hb B IH]; intros a A; [constructor|]. cbn [steers]. constructor; [|exact (IH b Hb)].
      unfold steer. rewrite A, Hb. discriminate.
    - constructor; [|constructor]. unfold steer. rewrite Pt, S1. discriminate. }
  destruct (loop_total n k Sd beta (2 * eps / M) (pieces n k i)) as [N [[ok l] HN]]; [lra | apply Rdiv_lt_0_compat; lra | exact NN | exact U|].
  exists N. eexists. split; [reflexivity|]. intros fuel Hf. rewrite (HN fuel Hf). cbn [bind]. reflexivity.
Qed.

(* Along a free segment the projection succeeds. *)
Theorem C88_succeeds n k eps M beta a b :
  free_segment k a b -> k_dim0 k = false -> 0 < eps -> 0 < M -> / 2 <= beta ->
  exists N l, forall fuel, (N <= fuel)%nat -> project n k eps M beta fuel (IOther a b) = Ok (true, Pieces l).
Proof. intros F. exact (project_line n k a b F eps M beta). Qed.

(* The constructor accepts exactly the values of beta in [1/2, 1]. *)
Theorem C88_beta n k eps M beta : (exists pr, projector n k eps M beta = Ok pr) <-> / 2 <= beta <= 1.
Proof.
  unfold projector. destruct (rltb_spec beta (/ 2)), (rltb_spec 1 beta); cbn [orb]; split; try (intros [pr E]; discriminate); try lra.
  intros _. eexists. reflexivity.
Qed.

(* ---------------------------------------------------------- counterexamples *)
Definition zero : vec := fun _ => 0.
Definition unit : vec := fun _ => 1.
(* the configurations 0 and 1 satisfy the constraints *)
Definition two : hcons :=
  {| k_sat := fun q => reqb (q 0%nat) 0 || reqb (q 0%nat) 1;
     k_apply := fun q => Some (if reqb (q 0%nat) 0 || reqb (q 0%nat) 1 then q else zero);
     k_kernel := fun _ _ => zero; k_dim0 := false |}.
Lemma two_sound : sound two.
Proof.
  intros q q' [= <-]. cbn. destruct (reqb (q 0%nat) 0 || reqb (q 0%nat) 1) eqn:E; [exact E|]. unfold zero. destruct (reqb_spec 0 0); [reflexivity | contradiction].
Qed.
Lemma norm1 v : norm 1 v = Rabs (v 0%nat).
Proof. unfold norm. cbn [rsum]. rewrite <- sqrt_Rsqr_abs. f_equal. unfold Rsqr. ring. Qed.
Record stuck (p : hermite) : Prop := {
  s_reg : regular p; s_init : h_init p 0%nat = 0; s_end : h_end p 0%nat = 1;
  s_v0 : get_v0 p 0%nat = 0; s_v1 : get_v1 p 0%nat = 0; s_len : h_length p = 1 }.
Lemma stuck_fuel thr fuel : 0 < thr <= 1 -> forall p, stuck p -> recurse 1 two 1 thr fuel p = Fuel.
Proof.
  intros Ht. induction fuel as [|fuel IH]; intros p S; [reflexivity|]. rewrite recurse_S.
  assert (Mid : sp_compute (h_spl p) (/ 2) 0%nat = / 2).
  { destruct S as [R S0 S1 V0 V1 _]. change (curve p (/ 2) 0%nat = / 2). rewrite (curve_cubic p (/ 2) 0%nat R) by lra.
    unfold get_v0 in V0. unfold get_v1 in V1. rewrite (reg_first p R) in V0. rewrite (reg_last p R) in V1.
    replace (row p 1 0%nat) with 0 by lra. replace (row p 2 0%nat) with 1 by lra. rewrite S0, S1. field. }
  destruct S as [R S0 S1 V0 V1 SL]. rewrite SL. destruct (rltb_spec 1 thr); [lra|].
  assert (Ev : h_eval two p (/ 2) = Some zero).
  { unfold h_eval. cbn. rewrite Mid. destruct (reqb_spec (/ 2) 0); [lra|]. destruct (reqb_spec (/ 2) 1); [lra|]. reflexivity. }
  unfold h_velocity. rewrite Ev. cbn [bind].
  assert (Z : k_sat two zero = true) by (cbn; unfold zero; destruct (reqb_spec 0 0); [reflexivity | contradiction]).
  assert (A : k_sat two (h_init p) = true) by (cbn; rewrite S0; destruct (reqb_spec 0 0); [reflexivity | contradiction]).
  assert (B : k_sat two (h_end p) = true) by (cbn; rewrite S1; destruct (reqb_spec 1 0), (reqb_spec 1 1); try lra; reflexivity).
  unfold steer. rewrite Z, A, B. cbn [andb]. cbv zeta.
  set (lp := compute_length 1 (set_v1 (set_v0 (compute_length 1 (hermite_create 1 two (h_init p) zero)) _) _)).
  set (rp := compute_length 1 (set_v1 (set_v0 (compute_length 1 (hermite_create 1 two zero (h_end p))) _) _)).
  assert (Ll : h_length lp = 0).
  { unfold lp. cbn [compute_length h_length]. rewrite !norm1. unfold vminus, row, vdiv. cbn. unfold vminus, zero, vdiv. rewrite S0, V0.
    repeat match goal with |- context [Rabs ?x] => replace x with 0 by field; rewrite Rabs_R0 end. ring. }
  assert (Lr : h_length rp = 1).
  { unfold rp. cbn [compute_length h_length]. rewrite !norm1. unfold vminus, row, vdiv. cbn. unfold vminus, zero, vdiv. rewrite S1, V1.
    match goal with |- Rabs ?x + Rabs ?y + Rabs ?z = _ => replace x with 0 by field; replace y with 1 by field; replace z with 0 by field end. rewrite Rabs_R0, Rabs_R1. ring. }
  rewrite Ll. destruct (rltb_spec (1 * 1) 0); [lra|].
  destruct fuel as [|fuel]; [reflexivity|]. rewrite recurse_S. rewrite Ll. destruct (rltb_spec 0 thr); [|lra]. cbn [bind negb].
  rewrite Lr. destruct (rltb_spec (1 * 1) 1); [lra|].
  rewrite (IH rp); [reflexivity|]. constructor; [| reflexivity | exact S1 | | | exact Lr].
  - apply regular_length, regular_set_v1, regular_set_v0, regular_length, regular_create.
  - unfold rp. rewrite both_v0. unfold vdiv. cbn. unfold zero. field.
  - unfold rp. rewrite both_v1. unfold vdiv. rewrite V1. field.
Qed.
(* beta = 1 is accepted by the constructor, but then the recursion may never
   end: one half of the path is as long as the path. *)
Theorem C88_beta_refuted : exists k a b, sound k /\ k_sat k a = true /\ k_sat k b = true /\
  forall eps M, 0 < eps -> 0 < M -> 2 * eps <= M ->
  exists pr, projector 1 k eps M 1 = Ok pr /\ forall fuel, pr fuel (IOther a b) = Fuel.
Proof.
  assert (Z : k_sat two zero = true) by (cbn; unfold zero; destruct (reqb_spec 0 0); [reflexivity | contradiction]).
  assert (U : k_sat two unit = true) by (cbn; unfold unit; destruct (reqb_spec 1 0), (reqb_spec 1 1); try lra; reflexivity).
  exists two, zero, unit. split; [exact two_sound|]. split; [exact Z|]. split; [exact U|]. intros eps M He HM L.
  unfold projector. destruct (rltb_spec 1 (/ 2)); [lra|]. destruct (rltb_spec 1 1); [lra|]. cbn [orb]. eexists. split; [reflexivity|]. intros fuel.
  assert (T0 : 0 < 2 * eps / M) by (apply Rdiv_lt_0_compat; lra).
  assert (T1 : 2 * eps / M <= 1).
  { apply Rmult_le_reg_r with M; [exact HM|]. unfold Rdiv. rewrite Rmult_assoc, Rinv_l by lra. lra. }
  unfold project. cbn [in_end]. rewrite U. cbn [negb k_dim0 two pieces]. fold two. unfold steer. rewrite Z, U. cbn [andb project_loop]. cbv zeta.
  set (p := compute_length 1 (compute_length 1 _)).
  assert (Lp : h_length p = 1).
  { unfold p. cbn [compute_length h_length]. rewrite !norm1. unfold vminus, row. cbn. unfold vminus, zero, unit.
    match goal with |- Rabs ?x + Rabs ?y + Rabs ?z = _ => replace x with 0 by field; replace y with 1 by field; replace z with 0 by field end. rewrite Rabs_R0, Rabs_R1. ring. }
  rewrite Lp. destruct (rltb_spec 1 (2 * eps / M)); [lra|]. rewrite stuck_fuel; [reflexivity | lra|].
  constructor; [apply regular_length, regular_length, regular_create | reflexivity | reflexivity | | | exact Lp].
  - unfold p, get_v0, row. cbn. unfold zero. field.
  - unfold p, get_v1, row. cbn. unfold vminus, zero, unit. field.
Qed.

(* Only the end of the path is tested: when its beginning does not satisfy the
   constraints the steering method returns no path, and it is used. *)
Theorem C88_start_refuted n k eps M beta fuel a b :
  k_sat k a = false -> k_sat k b = true -> k_dim0 k = false ->
  project n k eps M beta fuel (IOther a b) = UB.
Proof.
  intros A B D. unfold project. cbn [in_end]. rewrite B, D. cbn [negb pieces]. unfold steer. rewrite A. reflexivity.
Qed.
(* When the end of the path does not satisfy the constraints nothing is
   written in the result. *)
Theorem C88_end_refuted n k eps M beta fuel i :
  k_sat k (in_end i) = false -> project n k eps M beta fuel i = Ok (false, Nothing).
Proof. intros E. unfold project. rewrite E. reflexivity. Qed.

(* ------------------------------------------------------------------ example *)
(* The line between 0 and 1 with the free motions: one piece, or two. *)
Definition free : hcons := {| k_sat := fun _ => true; k_apply := Some; k_kernel := fun _ v => v; k_dim0 := false |}.
Example C88_example :
  sound free /\ free_segment free zero unit /\ satisfied_points free (IOther zero unit) /\
  exists l, project 1 free 1 (3 / 2) (/ 2) 1 (IOther zero unit) = Ok (true, Pieces l) /\ length l = 1%nat.
Proof.
  split; [intros q q' _; reflexivity|]. split; [intros t _; repeat split|]. split; [reflexivity|].
  unfold project. cbn [in_end free k_sat negb k_dim0 pieces]. fold free. unfold steer. cbn [free k_sat andb project_loop]. fold free. cbv zeta.
  set (p := compute_length 1 (compute_length 1 _)).
  assert (Lp : h_length p = 1).
  { unfold p. cbn [compute_length h_length]. rewrite !norm1. unfold vminus, row. cbn. unfold vminus, zero, unit.
    match goal with |- Rabs ?x + Rabs ?y + Rabs ?z = _ => replace x with (/ 3) by field; replace y with (/ 3) by field; replace z with (/ 3) by field end.
    rewrite Rabs_right by lra. field. }
  rewrite Lp. destruct (rltb_spec 1 (2 * 1 / (3 / 2))) as [|N]; [|exfalso; apply N; lra]. cbn [bind]. eexists. split; reflexivity.
Qed.

Print Assumptions C88_projects.
Print Assumptions C88_error.
Print Assumptions C88_smooth.
Print Assumptions C88_fails.
Print Assumptions C88_terminates.
Print Assumptions C88_succeeds.
Print Assumptions C88_beta.
Print Assumptions C88_beta_refuted.
Print Assumptions C88_start_refuted.
Print Assumptions C88_end_refuted.
