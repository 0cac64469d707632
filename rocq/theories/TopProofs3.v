(* Proofs of C108: the sub-paths of the result. *)
From Coq Require Import Reals Lra Lia Psatz ZArith.
From Verif Require Import Base XReal PolyModel PolySpec PolyProps TopModel TopSpec TopProofs TopProofs2.
Open Scope R_scope.

Lemma speeds_nth x k : nth k (speeds x) 0 = sqrt (pos (nth k x 0)).
Proof.
  unfold speeds. replace 0 with (sqrt (Rmax 0 0)) at 1.
  - rewrite (map_nth (fun v => sqrt (Rmax v 0))). reflexivity.
  - rewrite Rmax_left by lra. apply sqrt_0.
Qed.
Lemma speeds_nonneg x k : 0 <= nth k (speeds x) 0.
Proof. rewrite speeds_nth. apply sqrt_pos. Qed.
Lemma speeds_sq x k : nth k (speeds x) 0 * nth k (speeds x) 0 = pos (nth k x 0).
Proof. rewrite speeds_nth. apply sqrt_sqrt. apply Rmax_r. Qed.
Lemma speeds_sum x k : moving x -> (S k < length x)%nat -> 0 < nth k (speeds x) 0 + nth (S k) (speeds x) 0.
Proof.
  intros H Hk. pose proof (speeds_nonneg x k). pose proof (speeds_nonneg x (S k)).
  assert (P : forall i, 0 < nth i x 0 -> 0 < nth i (speeds x) 0).
  { intros i Hi. rewrite speeds_nth. apply sqrt_lt_R0. unfold pos. rewrite Rmax_left; lra. }
  destruct (H k Hk) as [Q|Q]; apply P in Q; lra.
Qed.
Lemma travel_times : forall s x t r, length s = length x -> times s (speeds x) t = Ok r -> last (t :: r) 0 = t + travel s x.
Proof.
  induction s as [|s0 s IH]; intros x t r L E.
  - cbn in E. assert (r = []) by congruence. subst. cbn. lra.
  - destruct x as [|x0 x]; [discriminate|]. destruct s as [|s1 s].
    + destruct x; [|discriminate]. cbn in E. assert (r = []) by congruence. subst. cbn. lra.
    + destruct x as [|x1 x]; [discriminate|].
      change (speeds (x0 :: x1 :: x)) with (sqrt (pos x0) :: sqrt (pos x1) :: speeds x) in E.
      rewrite times_cons in E. destruct (rleb ((sqrt (pos x0) + sqrt (pos x1)) * / 2) 0) eqn:Ea; [discriminate|].
      apply rleb_false in Ea.
      change (sqrt (pos x1) :: speeds x) with (speeds (x1 :: x)) in E.
      set (t' := t + (s1 - s0) / ((sqrt (pos x0) + sqrt (pos x1)) * / 2)) in *.
      destruct (times (s1 :: s) (speeds (x1 :: x)) t') as [r'| | |] eqn:E'; try discriminate. cbn [bind] in E.
      assert (r = t' :: r') by congruence. subst r.
      change (last (t :: t' :: r') 0) with (last (t' :: r') 0). rewrite (IH (x1 :: x) t' r' ltac:(cbn in *; lia) E').
      change (travel (s0 :: s1 :: s) (x0 :: x1 :: x)) with
        (2 * (s1 - s0) / (sqrt (pos x0) + sqrt (pos x1)) + travel (s1 :: s) (x1 :: x)).
      unfold t'. field. lra.
Qed.

Section Out.
Context {C : Type}.
Variables g x ts : list R.
Hypothesis Lx : length g = length (speeds x).
Hypothesis L2 : (2 <= length g)%nat.
Hypothesis Hinc : forall k, (S k < length g)%nat -> nth k g 0 < nth (S k) g 0.
Hypothesis Ht : times g (speeds x) 0 = Ok ts.
Let t := 0 :: ts.
Let w := law g (speeds x) ts.
Let M := (length g - 1)%nat.
Let node k (H : (k <= M)%nat) := law_node g (speeds x) ts Lx L2 Hinc Ht k H.

Definition mkout (i0 i1 : nat) (p : tsub C) : tout C :=
  mkTO p (mkEx w (nth i0 t 0) (- nth i0 g 0)) (nth i1 t 0 - nth i0 t 0) 0 (nth i1 g 0 - nth i0 g 0).
Fixpoint outs (ids : list nat) (l : list (tsub C)) : list (tout C) :=
  match ids, l with
  | i0 :: ((i1 :: _) as ids'), p :: l' => mkout i0 i1 p :: outs ids' l'
  | _, _ => []
  end.

Lemma value_node i0 i1 : (i0 <= M)%nat -> (i1 <= M)%nat ->
  ex_value (mkEx w (nth i0 t 0) (- nth i0 g 0)) (nth i1 t 0 - nth i0 t 0) = Ok (nth i1 g 0 - nth i0 g 0).
Proof.
  intros H0 H1. unfold ex_value. cbn [ex_in ex_dt ex_ds].
  replace (nth i1 t 0 - nth i0 t 0 + nth i0 t 0) with (nth i1 t 0) by ring.
  unfold t, w. rewrite (proj1 (node i1 H1)). reflexivity.
Qed.
Lemma len_t : length t = length g.
Proof. apply (law_len g (speeds x) ts Lx L2 Ht). Qed.

Lemma apply_law_cons (p : tsub C) l i0 i1 ids : apply_law w t g (i0 :: i1 :: ids) (p :: l) =
  match nth_error t i0, nth_error t i1, nth_error g i0 with
  | Some t0, Some t1, Some g0 =>
      bind (ex_value (mkEx w t0 (- g0)) 0) (fun a => bind (ex_value (mkEx w t0 (- g0)) (t1 - t0)) (fun b =>
      bind (apply_law w t g (i1 :: ids) l) (fun r => Ok (mkTO p (mkEx w t0 (- g0)) (t1 - t0) a b :: r))))
  | _, _, _ => UB
  end.
Proof. reflexivity. Qed.
Lemma apply_law_ok : forall l ids, length ids = S (length l) -> Forall (fun i => (i <= M)%nat) ids ->
  apply_law w t g ids l = Ok (outs ids l).
Proof.
  induction l as [|p l IH]; intros ids Hl F.
  - destruct ids as [|i0 [|i1 ids]]; try discriminate. reflexivity.
  - destruct ids as [|i0 ids]; [discriminate|]. destruct ids as [|i1 ids]; [discriminate|].
    inversion F as [|? ? F0 F']; subst. inversion F' as [|? ? F1 _]; subst.
    rewrite apply_law_cons.
    rewrite (nth_error_nth' t 0 (n := i0)) by (rewrite len_t; unfold M in F0; lia).
    rewrite (nth_error_nth' t 0 (n := i1)) by (rewrite len_t; unfold M in F1; lia).
    rewrite (nth_error_nth' g 0 (n := i0)) by (unfold M in F0; lia).
    assert (E0 : ex_value (mkEx w (nth i0 t 0) (- nth i0 g 0)) 0 = Ok 0).
    { pose proof (value_node i0 i0 F0 F0) as Q. rewrite !(Rminus_diag_eq _ _ eq_refl) in Q. exact Q. }
    rewrite E0. cbn [bind]. rewrite (value_node i0 i1 F0 F1). cbn [bind].
    rewrite (IH (i1 :: ids) ltac:(cbn in *; lia) F'). cbn [bind].
    reflexivity.
Qed.

Lemma outs_nth : forall l ids j p, length ids = S (length l) -> nth_error l j = Some p ->
  nth_error (outs ids l) j = Some (mkout (nth j ids 0%nat) (nth (S j) ids 0%nat) p).
Proof.
  induction l as [|p0 l IH]; intros ids j p Hl E; [destruct j; discriminate|].
  destruct ids as [|i0 ids]; [discriminate|]. destruct ids as [|i1 ids]; [discriminate|].
  destruct j as [|j].
  - cbn in E. injection E as ->. reflexivity.
  - cbn in E. change (nth_error (outs (i1 :: ids) l) j = Some (mkout (nth j (i1 :: ids) 0%nat) (nth (S j) (i1 :: ids) 0%nat) p)).
    apply IH; [cbn in *; lia|exact E].
Qed.
Lemma outs_subs : forall l ids, length ids = S (length l) -> map to_sub (outs ids l) = l.
Proof.
  induction l as [|p0 l IH]; intros ids Hl; destruct ids as [|i0 ids]; try discriminate.
  - destruct ids; reflexivity.
  - destruct ids as [|i1 ids]; [discriminate|]. change (p0 :: map to_sub (outs (i1 :: ids) l) = p0 :: l).
    rewrite IH by (cbn in *; lia). reflexivity.
Qed.
Lemma outs_sum : forall l ids, length ids = S (length l) ->
  fold_right (fun o a => to_T o + a) 0 (outs ids l) = nth (last ids 0%nat) t 0 - nth (hd 0%nat ids) t 0.
Proof.
  induction l as [|p0 l IH]; intros ids Hl; destruct ids as [|i0 ids]; try discriminate.
  - destruct ids; [|discriminate]. cbn [outs fold_right last hd]. lra.
  - destruct ids as [|i1 ids]; [discriminate|].
    change (fold_right (fun o a => to_T o + a) 0 (outs (i0 :: i1 :: ids) (p0 :: l)))
      with (nth i1 t 0 - nth i0 t 0 + fold_right (fun o a => to_T o + a) 0 (outs (i1 :: ids) l)).
    rewrite IH by (cbn in *; lia). change (last (i0 :: i1 :: ids) 0%nat) with (last (i1 :: ids) 0%nat). cbn [hd]. lra.
Qed.

Lemma tm i j : (i <= j)%nat -> (j < length g)%nat -> nth i t 0 <= nth j t 0.
Proof. exact (t_mono g (speeds x) ts Lx L2 Hinc Ht i j). Qed.
Lemma out_range i0 i1 p tt : (i0 <= i1 <= M)%nat -> 0 <= tt <= to_T (mkout i0 i1 p) ->
  0 <= tt + nth i0 t 0 <= nth M t 0 /\ nth i0 t 0 <= tt + nth i0 t 0 <= nth i1 t 0.
Proof.
  intros H Hx. cbn [to_T mkout] in Hx. pose proof (tm i1 M ltac:(lia) ltac:(unfold M; lia)).
  pose proof (tm 0%nat i0 ltac:(lia) ltac:(unfold M in H; lia)). change (nth 0 t 0) with 0 in H1. lra.
Qed.
Lemma out_timed i0 i1 p : (i0 <= i1 <= M)%nat ->
  timed_onto (ex_value (to_law (mkout i0 i1 p))) (to_T (mkout i0 i1 p)) (nth i1 g 0 - nth i0 g 0).
Proof.
  intros H. cbn [to_law mkout].
  assert (T0 : 0 <= to_T (mkout i0 i1 p)) by (cbn [to_T mkout]; pose proof (tm i0 i1 ltac:(lia) ltac:(unfold M in H; lia)); lra).
  assert (V : forall tt s, ex_value (mkEx w (nth i0 t 0) (- nth i0 g 0)) tt = Ok s -> pw_val w (tt + nth i0 t 0) = Ok (s + nth i0 g 0)).
  { intros tt s E. unfold ex_value in E. cbn [ex_in ex_dt ex_ds] in E. destruct (pw_val w (tt + nth i0 t 0)) as [a| | |]; try discriminate.
    cbn [bind] in E. injection E as <-. f_equal. ring. }
  assert (V' : forall tt s, pw_val w (tt + nth i0 t 0) = Ok (s + nth i0 g 0) -> ex_value (mkEx w (nth i0 t 0) (- nth i0 g 0)) tt = Ok s).
  { intros tt s E. unfold ex_value. cbn [ex_in ex_dt ex_ds]. rewrite E. cbn [bind]. f_equal. ring. }
  assert (E0 : ex_value (mkEx w (nth i0 t 0) (- nth i0 g 0)) 0 = Ok 0).
  { apply V'. rewrite !Rplus_0_l. apply (node i0). lia. }
  assert (E1 : ex_value (mkEx w (nth i0 t 0) (- nth i0 g 0)) (to_T (mkout i0 i1 p)) = Ok (nth i1 g 0 - nth i0 g 0)).
  { apply value_node; lia. }
  assert (Q : forall a b sa sb, 0 <= a -> a < b -> b <= to_T (mkout i0 i1 p) ->
     ex_value (mkEx w (nth i0 t 0) (- nth i0 g 0)) a = Ok sa -> ex_value (mkEx w (nth i0 t 0) (- nth i0 g 0)) b = Ok sb -> sa < sb).
  { intros a b sa sb A B B' Ea Eb. apply V in Ea. apply V in Eb.
    pose proof (out_range i0 i1 p a H ltac:(lra)) as [Ra _]. pose proof (out_range i0 i1 p b H ltac:(lra)) as [Rb _].
    pose proof (law_strict g (speeds x) ts Lx L2 Hinc (speeds_nonneg x) Ht _ _ _ _ (proj1 Ra) (Rplus_lt_compat_r _ _ _ B) (proj2 Rb) Ea Eb). lra. }
  constructor; try assumption.
  - intros s Hs. destruct (law_onto g (speeds x) ts Lx L2 Hinc Ht i0 i1 (s + nth i0 g 0)) as (y & Hy & Ey); try lia; try lra.
    exists (y - nth i0 t 0). fold t in Hy. split; [cbn [to_T mkout]; lra|].
    apply V'. replace (y - nth i0 t 0 + nth i0 t 0) with y by ring. exact Ey.
  - intros tt Htt. pose proof (out_range i0 i1 p tt H Htt) as [Ra Rb].
    destruct (law_speed g (speeds x) ts Lx L2 Hinc (speeds_nonneg x) Ht _ Ra) as (a & v & k & Ea & _).
    exists (a - nth i0 g 0). assert (Es : ex_value (mkEx w (nth i0 t 0) (- nth i0 g 0)) tt = Ok (a - nth i0 g 0)).
    { apply V'. unfold w. rewrite Ea. f_equal. ring. }
    split; [exact Es|].
    destruct (Req_dec tt 0) as [->|N0].
    { rewrite E0 in Es. assert (a - nth i0 g 0 = 0) by congruence. pose proof (s_mono g (speeds x) Lx L2 Hinc i0 i1 ltac:(lia) ltac:(unfold M in H; lia)). lra. }
    destruct (Req_dec tt (to_T (mkout i0 i1 p))) as [->|N1].
    { rewrite E1 in Es. assert (a - nth i0 g 0 = nth i1 g 0 - nth i0 g 0) by congruence. pose proof (s_mono g (speeds x) Lx L2 Hinc i0 i1 ltac:(lia) ltac:(unfold M in H; lia)). lra. }
    pose proof (Q 0 tt _ _ ltac:(lra) ltac:(lra) ltac:(lra) E0 Es).
    pose proof (Q tt (to_T (mkout i0 i1 p)) _ _ ltac:(lra) ltac:(lra) (Rle_refl _) Es E1). lra.
Qed.
Lemma out_speed i0 i1 p tt : (i0 <= i1 <= M)%nat -> 0 <= tt <= to_T (mkout i0 i1 p) ->
  exists s v, ex_value (to_law (mkout i0 i1 p)) tt = Ok s /\ ex_derivative (to_law (mkout i0 i1 p)) tt 1 = Ok v /\
    0 <= v /\ profile g x (nth i0 g 0 + s) (v * v).
Proof.
  intros H Htt. pose proof (out_range i0 i1 p tt H Htt) as [Ra Rb].
  destruct (law_speed g (speeds x) ts Lx L2 Hinc (speeds_nonneg x) Ht _ Ra) as (a & v & k & Ea & Ev & V0 & K & B & P).
  exists (a - nth i0 g 0), v. split; [|split; [exact Ev|split; [exact V0|]]].
  - cbn [to_law mkout]. unfold ex_value. cbn [ex_in ex_dt ex_ds]. unfold w. fold t in Ea. rewrite Ea. reflexivity.
  - exists k. rewrite !speeds_sq in P. replace (nth i0 g 0 + (a - nth i0 g 0)) with a by ring. split; [exact K|split; [exact B|exact P]].
Qed.
Lemma out_acc i0 i1 p tt k : (i0 <= i1 <= M)%nat -> 0 <= tt <= to_T (mkout i0 i1 p) ->
  in_piece w k (tt + nth i0 t 0) ->
  ex_derivative (to_law (mkout i0 i1 p)) tt 2 = Ok ((pos (nth (S k) x 0) - pos (nth k x 0)) / (2 * (nth (S k) g 0 - nth k g 0))).
Proof.
  intros H Htt P. unfold ex_derivative. cbn [to_law mkout ex_in ex_dt]. unfold w in *.
  rewrite (proj2 (proj2 (law_at g (speeds x) ts Lx L2 Hinc Ht k _ P))). f_equal.
  pose proof (piece_bounds g (speeds x) ts Lx L2 Hinc Ht k _ P) as [K _].
  destruct (law_step g (speeds x) ts Lx L2 Ht k K) as [A B]. rewrite B.
  pose proof (Hinc k ltac:(lia)) as I. rewrite <- !speeds_sq. field. lra.
Qed.
End Out.
