(* Laws made of pieces of constant acceleration. *)
From Coq Require Import Reals ZArith List Bool Lra Lia Psatz.
From Verif Require Import Base XReal CurvModel PolyProofs RSTimeModel RSTimeSpec.
Import ListNotations.
Open Scope R_scope.

Lemma find_from_in ts i t : Exists (fun s => t <= s) ts -> forall l, find_from (ts ++ l) i t = find_from ts i t.
Proof.
  intros H. revert i. induction ts as [|s ts IH]; [inversion H|]. intros i l. cbn [find_from app].
  destruct (rleb_spec t s); [reflexivity|]. apply IH. inversion H; [contradiction|assumption].
Qed.
Lemma find_from_out ts i t : Forall (fun s => s < t) ts -> find_from ts i t = (i + length ts)%nat.
Proof.
  revert i. induction ts as [|s ts IH]; intros i H; cbn [find_from length]; [lia|]. inversion H; subst.
  destruct (rleb_spec t s); [lra|]. rewrite IH by assumption. lia.
Qed.
Lemma find_from_app ts l i t : Forall (fun s => s < t) ts -> find_from (ts ++ l) i t = find_from l (i + length ts) t.
Proof.
  revert i. induction ts as [|s ts IH]; intros i H; cbn [find_from length app]; [f_equal; lia|]. inversion H; subst.
  destruct (rleb_spec t s); [lra|]. rewrite IH by assumption. f_equal. lia.
Qed.
Lemma find_from_lt ts i t : Exists (fun s => t <= s) ts -> (find_from ts i t < i + length ts)%nat.
Proof.
  intros H. revert i. induction ts as [|s ts IH]; [inversion H|]. intros i. cbn [find_from length].
  destruct (rleb_spec t s); [lia|]. assert (E : Exists (fun s => t <= s) ts) by (inversion H; [contradiction|assumption]).
  specialize (IH E (S i)). lia.
Qed.
Lemma last_app {A} (l : list A) x d : last (l ++ [x]) d = x.
Proof. induction l as [|a l IH]; [reflexivity|]. cbn [app last]. destruct (l ++ [x]) eqn:E; [destruct l; discriminate | exact IH]. Qed.

(* a function made of two *)
Definition join (T : R) (f g : R -> R) (t : R) : R := if rleb t T then f t else g t.
Lemma join_l T f g t : t <= T -> join T f g t = f t.
Proof. intros H. unfold join. destruct (rleb_spec t T); [reflexivity|contradiction]. Qed.
Lemma join_r T f g t : T < t -> join T f g t = g t.
Proof. intros H. unfold join. destruct (rleb_spec t T); [lra|reflexivity]. Qed.
Lemma join_derivable T f g f' g' : f T = g T -> f' T = g' T ->
  (forall t, derivable_pt_lim f t (f' t)) -> (forall t, derivable_pt_lim g t (g' t)) ->
  forall t, derivable_pt_lim (join T f g) t (join T f' g' t).
Proof.
  intros E E' Hf Hg t eps He.
  assert (J : forall u, T <= u -> join T f g u = g u).
  { intros u Hu. destruct (Rle_lt_or_eq_dec _ _ Hu) as [L|<-]; [apply join_r, L | rewrite join_l by lra; exact E]. }
  destruct (Rtotal_order t T) as [L|[->|L]].
  - destruct (Hf t eps He) as [d Hd].
    assert (P : 0 < Rmin d (T - t)) by (apply Rmin_glb_lt; [apply cond_pos | lra]).
    exists (mkposreal _ P). intros h N Hh. cbn in Hh. pose proof (Rmin_l d (T - t)). pose proof (Rmin_r d (T - t)).
    rewrite !join_l by (try lra; apply Rabs_def2 in Hh; lra). apply Hd; [exact N|lra].
  - destruct (Hf T eps He) as [d Hd]. destruct (Hg T eps He) as [d2 Hd2].
    assert (P : 0 < Rmin d d2) by (apply Rmin_glb_lt; apply cond_pos).
    exists (mkposreal _ P). intros h N Hh. cbn in Hh. pose proof (Rmin_l d d2). pose proof (Rmin_r d d2).
    destruct (Rle_lt_dec h 0).
    + rewrite !join_l by lra. apply Hd; [exact N|lra].
    + rewrite (J (T + h)), (J T), join_l, E' by lra. apply Hd2; [exact N|lra].
  - destruct (Hg t eps He) as [d Hd].
    assert (P : 0 < Rmin d (t - T)) by (apply Rmin_glb_lt; [apply cond_pos | lra]).
    exists (mkposreal _ P). intros h N Hh. cbn in Hh. pose proof (Rmin_l d (t - T)). pose proof (Rmin_r d (t - T)).
    rewrite !join_r by (try lra; apply Rabs_def2 in Hh; lra). apply Hd; [exact N|lra].
Qed.

Definition quad (T a b c t : R) : R := a * (t - T) * (t - T) + b * (t - T) + c.
Definition slope (T a b t : R) : R := 2 * a * (t - T) + b.
Lemma quad_derivable T a b c t : derivable_pt_lim (quad T a b c) t (slope T a b t).
Proof.
  apply (derivable_pt_lim_ext (fun t => (a * t + (b - 2 * a * T)) * t + (c + a * T * T - b * T))).
  - intros u. unfold quad. ring.
  - replace (slope T a b t) with ((a * 1 + 0) * t + (a * t + (b - 2 * a * T)) * 1 + 0) by (unfold slope; ring).
    apply (derivable_pt_lim_plus (fun u => (a * u + (b - 2 * a * T)) * u) (fun _ => c + a * T * T - b * T));
      [|apply derivable_pt_lim_const].
    apply (derivable_pt_lim_mult (fun u => a * u + (b - 2 * a * T)) (fun u => u)); [|apply derivable_pt_lim_id].
    apply (derivable_pt_lim_plus (fun u => a * u) (fun _ => b - 2 * a * T)); [|apply derivable_pt_lim_const].
    apply (derivable_pt_lim_scal id), derivable_pt_lim_id.
Qed.

(* The law q, in progress, after its first piece. *)
Record prog (q : law) (T e v : R) (f g h : R -> R) (A D M : R) : Prop := {
  g_last : last (l_times q) 0 = T;
  g_len : length (l_times q) = S (length (l_pieces q));
  g_some : l_pieces q <> [];
  g_le : Forall (fun s => s <= T) (l_times q);
  g_pos : 0 <= T;
  g_val : forall t, 0 <= t <= T -> law_value q t = Ok (f t);
  g_der : forall t, 0 <= t <= T -> law_derivative q t 1 = Ok (g t);
  g_acc2 : forall t, 0 <= t <= T -> law_derivative q t 2 = Ok (h t);
  g_dpl : forall t, derivable_pt_lim f t (g t);
  g_acc : forall s t, s <= t -> - D * (t - s) <= g t - g s <= A * (t - s);
  g_lim : forall t, 0 <= t <= T -> 0 <= g t <= M;
  g_up : forall s t, 0 <= s -> s <= t -> t <= T -> (forall r, s < r <= t -> 0 <= h r) -> g s <= g t;
  g_down : forall s t, 0 <= s -> s <= t -> t <= T -> (forall r, s < r <= t -> h r <= 0) -> g t <= g s;
  g_e : f T = e; g_v : g T = v;
  g_0 : f 0 = 0; g_i : g 0 = l_init q
}.

Lemma times_split q : (exists t0 ts, l_times q = t0 :: ts) -> exists ts, l_times q = hd 0 (l_times q) :: ts.
Proof. intros [t0 [ts E]]. exists ts. rewrite E. reflexivity. Qed.

Lemma last_in (l : list R) d : l <> [] -> In (last l d) l.
Proof.
  induction l as [|a l IH]; [contradiction|]. intros _. destruct l as [|b l]; [left; reflexivity|].
  right. apply IH. discriminate.
Qed.
Lemma exists_last (l : list R) t d : l <> [] -> t <= last l d -> Exists (fun s => t <= s) l.
Proof. intros N H. apply Exists_exists. exists (last l d). split; [apply last_in, N | exact H]. Qed.

(* a piece does not change what comes before it *)
Lemma piece_before q a b c dt t : length (l_times q) = S (length (l_pieces q)) -> l_pieces q <> [] ->
  0 <= t <= last (l_times q) 0 -> piece_at (push q a b c dt) t = piece_at q t.
Proof.
  intros Hl Hn Ht. unfold piece_at, find_interval, push; cbn [l_times l_pieces].
  destruct (rltb_spec t 0); [lra|]. destruct (l_times q) as [|t0 ts] eqn:E; [discriminate|]. cbn [tl app length] in *.
  assert (Nts : ts <> []) by (destruct ts; [|discriminate]; destruct (l_pieces q); [contradiction|discriminate]).
  assert (X : Exists (fun s => t <= s) ts).
  { apply (exists_last ts t 0 Nts). destruct ts as [|b0 ts']; [contradiction|]. exact (proj2 Ht). }
  rewrite find_from_in by exact X. pose proof (find_from_lt ts 0 t X) as L.
  rewrite !nth_error_app1 by (cbn [length]; lia). change (t0 :: ts ++ [last (t0 :: ts) 0 + dt]) with ((t0 :: ts) ++ [last (t0 :: ts) 0 + dt]).
  rewrite nth_error_app1 by (cbn [length]; lia). reflexivity.
Qed.
Lemma piece_after q a b c dt t : length (l_times q) = S (length (l_pieces q)) -> Forall (fun s => s <= last (l_times q) 0) (l_times q) ->
  0 <= last (l_times q) 0 -> last (l_times q) 0 < t <= last (l_times q) 0 + dt -> piece_at (push q a b c dt) t = Ok (last (l_times q) 0, (a, b, c)).
Proof.
  intros Hl Hf H0 Ht. unfold piece_at, find_interval, push; cbn [l_times l_pieces].
  destruct (rltb_spec t 0); [lra|]. destruct (l_times q) as [|t0 ts] eqn:E; [discriminate|]. cbn [tl app length] in *.
  set (T := last (t0 :: ts) 0) in *.
  assert (Lt : Forall (fun s => s < t) ts) by (refine (Forall_impl _ _ (Forall_inv_tail Hf)); cbn beta; intros z Hz; lra).
  rewrite find_from_app by exact Lt. cbn [find_from Nat.add]. destruct (rleb_spec t (T + dt)); [|lra].
  assert (El : length ts = length (l_pieces q)) by lia.
  rewrite El, nth_error_app2, Nat.sub_diag by lia. cbn [nth_error].
  change (t0 :: ts ++ [T + dt]) with ((t0 :: ts) ++ [T + dt]). rewrite nth_error_app1 by (cbn [length]; lia).
  assert (Hn : nth_error (t0 :: ts) (length (l_pieces q)) = Some T).
  { rewrite <- El. unfold T. clear. revert t0. induction ts as [|b ts IH]; intros t0; [reflexivity|]. cbn [length nth_error]. exact (IH b). }
  rewrite Hn. reflexivity.
Qed.
Lemma piece_first v a b c dt t : 0 <= t <= dt -> piece_at (push (law_create v) a b c dt) t = Ok (0, (a, b, c)).
Proof.
  intros Ht. unfold piece_at, find_interval, push, law_create; cbn [l_times l_pieces app last tl find_from].
  destruct (rltb_spec t 0); [lra|]. destruct (rleb_spec t (0 + dt)); [reflexivity|lra].
Qed.

Lemma slope_between T a b t dt : T <= t <= T + dt -> forall M, 0 <= b <= M -> 0 <= 2 * a * dt + b <= M -> 0 <= slope T a b t <= M.
Proof.
  intros Ht M H1 H2. unfold slope. assert (K : 0 <= (t - T) <= dt) by lra. generalize dependent (t - T). intros k K.
  destruct (Rle_lt_dec 0 a); nra.
Qed.

Lemma prog_first v a dt A D M : 0 <= dt -> - D <= 2 * a <= A -> 0 <= v <= M -> 0 <= 2 * a * dt + v <= M ->
  prog (push (law_create v) a v 0 dt) dt (a * dt * dt + v * dt + 0) (2 * a * dt + v)
    (quad 0 a v 0) (slope 0 a v) (fun _ => 2 * a) A D M.
Proof.
  intros Hd Ha Hv Hw. constructor; try (unfold quad, slope, push, law_create; cbn; ring).
  - discriminate.
  - cbn. constructor; [lra|]. constructor; [lra|constructor].
  - exact Hd.
  - intros t Ht. unfold law_value. rewrite piece_first by exact Ht. reflexivity.
  - intros t Ht. unfold law_derivative. rewrite piece_first by exact Ht. reflexivity.
  - intros t Ht. unfold law_derivative. rewrite piece_first by exact Ht. reflexivity.
  - intros t. apply quad_derivable.
  - intros s t Hst. unfold slope. split; nra.
  - intros t Ht. apply (slope_between 0 a v t dt); [lra|exact Hv|exact Hw].
  - intros s t _ Hst _ H. unfold slope. destruct (Rle_lt_or_eq_dec _ _ Hst) as [L| ->]; [|lra]. specialize (H t ltac:(lra)). nra.
  - intros s t _ Hst _ H. unfold slope. destruct (Rle_lt_or_eq_dec _ _ Hst) as [L| ->]; [|lra]. specialize (H t ltac:(lra)). nra.
Qed.

Lemma prog_push q T e v f g h A D M a dt : prog q T e v f g h A D M -> 0 <= dt -> - D <= 2 * a <= A -> 0 <= v <= M -> 0 <= 2 * a * dt + v <= M ->
  prog (push q a v e dt) (T + dt) (a * dt * dt + v * dt + e) (2 * a * dt + v)
    (join T f (quad T a v e)) (join T g (slope T a v)) (join T h (fun _ => 2 * a)) A D M.
Proof.
  intros P Hd Ha Hv Hw. destruct P as [P1 P2 P3 P4 P5 P6 P7 P8 P9 P10 P11 Pu Pd P12 P13 P14 P15].
  assert (B : forall t, 0 <= t <= T -> piece_at (push q a v e dt) t = piece_at q t).
  { intros t Ht. apply piece_before; [exact P2|exact P3|rewrite P1; exact Ht]. }
  assert (F : forall t, T < t <= T + dt -> piece_at (push q a v e dt) t = Ok (T, (a, v, e))).
  { intros t Ht. pose proof (piece_after q a v e dt t) as G. rewrite P1 in G. exact (G P2 P4 P5 Ht). }
  assert (Jg : forall t, T <= t -> join T g (slope T a v) t = slope T a v t).
  { intros t Ht. destruct (Rle_lt_or_eq_dec _ _ Ht) as [L|<-]; [apply join_r, L|]. rewrite join_l, P13 by lra. unfold slope. ring. }
  constructor.
  - cbn. rewrite last_app, P1. reflexivity.
  - cbn. rewrite !app_length, P2. cbn. lia.
  - cbn. destruct (l_pieces q); discriminate.
  - cbn. apply Forall_app. split; [eapply Forall_impl; [|exact P4]; cbn; intros; lra|]. rewrite P1. constructor; [lra|constructor].
  - lra.
  - intros t Ht. destruct (Rle_lt_dec t T).
    + rewrite join_l by assumption. rewrite <- P6 by lra. unfold law_value. rewrite B by lra. reflexivity.
    + rewrite join_r by assumption. unfold law_value. rewrite F by lra. reflexivity.
  - intros t Ht. destruct (Rle_lt_dec t T).
    + rewrite join_l by assumption. rewrite <- P7 by lra. unfold law_derivative. rewrite B by lra. reflexivity.
    + rewrite join_r by assumption. unfold law_derivative. rewrite F by lra. reflexivity.
  - intros t Ht. destruct (Rle_lt_dec t T).
    + rewrite join_l by assumption. rewrite <- P8 by lra. unfold law_derivative. rewrite B by lra. reflexivity.
    + rewrite join_r by assumption. unfold law_derivative. rewrite F by lra. reflexivity.
  - apply join_derivable; [rewrite P12; unfold quad; ring | rewrite P13; unfold slope; ring | exact P9 | intros; apply quad_derivable].
  - intros s t Hst. destruct (Rle_lt_dec t T).
    + rewrite !join_l by lra. apply P10, Hst.
    + rewrite (join_r _ _ _ t) by assumption. destruct (Rle_lt_dec s T).
      * rewrite join_l by assumption. pose proof (P10 s T ltac:(assumption)) as K. rewrite P13 in K. unfold slope. split; nra.
      * rewrite join_r by assumption. unfold slope. split; nra.
  - intros t Ht. destruct (Rle_lt_dec t T); [rewrite join_l by assumption; apply P11; lra|].
    rewrite join_r by assumption. apply (slope_between T a v t dt); [lra|exact Hv|exact Hw].
  - intros s t Hs Hst Ht H. destruct (Rle_lt_or_eq_dec _ _ Hst) as [L|<-]; [|lra]. destruct (Rle_lt_dec t T).
    + rewrite !join_l by lra. apply Pu; try assumption. intros x Hx. specialize (H x Hx). rewrite join_l in H by lra. exact H.
    + assert (A0 : 0 <= 2 * a) by (specialize (H t ltac:(lra)); rewrite join_r in H by lra; exact H).
      rewrite (join_r _ _ _ t) by assumption. destruct (Rle_lt_dec s T).
      * rewrite join_l by assumption. assert (K : g s <= g T).
        { apply Pu; try lra. intros x Hr. specialize (H x ltac:(lra)). rewrite join_l in H by lra. exact H. }
        rewrite P13 in K. unfold slope. nra.
      * rewrite join_r by assumption. unfold slope. nra.
  - intros s t Hs Hst Ht H. destruct (Rle_lt_or_eq_dec _ _ Hst) as [L|<-]; [|lra]. destruct (Rle_lt_dec t T).
    + rewrite !join_l by lra. apply Pd; try assumption. intros x Hx. specialize (H x Hx). rewrite join_l in H by lra. exact H.
    + assert (A0 : 2 * a <= 0) by (specialize (H t ltac:(lra)); rewrite join_r in H by lra; exact H).
      rewrite (join_r _ _ _ t) by assumption. destruct (Rle_lt_dec s T).
      * rewrite join_l by assumption. assert (K : g T <= g s).
        { apply Pd; try lra. intros x Hr. specialize (H x ltac:(lra)). rewrite join_l in H by lra. exact H. }
        rewrite P13 in K. unfold slope. nra.
      * rewrite join_r by assumption. unfold slope. nra.
  - destruct (Rle_lt_or_eq_dec _ _ Hd) as [L|<-].
    + rewrite join_r by lra. unfold quad. ring.
    + rewrite join_l, Rplus_0_r, P12 by lra. ring.
  - rewrite Jg by lra. unfold slope. ring.
  - rewrite join_l by lra. exact P14.
  - rewrite join_l by lra. exact P15.
Qed.
