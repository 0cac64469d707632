From Coq Require Import Reals List Bool Arith Lra Lia FunctionalExtensionality.
From Verif Require Import Base XReal PolyProofs SplineModel PartialCutReal RecHermModel RecHermSpec.
Import ListNotations.
Open Scope R_scope.

(* ---------------------------------------------------------------- norm *)
Lemma norm_ip n v : norm n v = sqrt (ip n (fun _ => 1) v v).
Proof.
  unfold norm, ip. f_equal. induction n as [|n IH]; [reflexivity|]. cbn [rsum sumf]. rewrite IH. ring.
Qed.
Lemma one_nonneg n : forall k, (k < n)%nat -> 0 <= (fun _ : nat => 1) k.
Proof. intros; lra. Qed.
Lemma norm_nonneg n v : 0 <= norm n v.
Proof. apply sqrt_pos. Qed.
Lemma norm_ext n u v : (forall d, u d = v d) -> norm n u = norm n v.
Proof.
  intros H. unfold norm. f_equal. induction n as [|n IH]; [reflexivity|]. cbn [rsum]. rewrite IH, H. reflexivity.
Qed.
Lemma norm_add n u v : norm n (fun d => u d + v d) <= norm n u + norm n v.
Proof.
  rewrite !norm_ip. set (c := fun _ : nat => 1).
  pose proof (ip_self n c (one_nonneg n) u) as F. pose proof (ip_self n c (one_nonneg n) v) as G.
  pose proof (cauchy n c (one_nonneg n) u v) as C. pose proof (sqrt_pos (ip n c u u)) as Pu. pose proof (sqrt_pos (ip n c v v)) as Pv.
  replace (ip n c (fun d => u d + v d) (fun d => u d + v d))
    with (ip n c (fun d => 1 * u d + 1 * v d) (fun d => 1 * u d + 1 * v d)) by (apply sumf_ext; intros; ring).
  pose proof (ip_self n c (one_nonneg n) (fun k => 1 * u k + 1 * v k)) as S.
  apply Rsqr_incr_0; [|apply sqrt_pos|lra]. rewrite Rsqr_sqrt by exact S. rewrite ip_lin.
  unfold Rsqr. pose proof (sqrt_sqrt _ F). pose proof (sqrt_sqrt _ G). nra.
Qed.
Lemma norm_scale n a v : norm n (fun d => a * v d) = Rabs a * norm n v.
Proof.
  unfold norm. rewrite <- sqrt_Rsqr_abs, <- sqrt_mult_alt by apply Rle_0_sqr. f_equal. unfold Rsqr.
  induction n as [|n IH]; cbn [rsum]; [ring|]. rewrite IH. ring.
Qed.
Lemma norm_sym n a b : norm n (vminus a b) = norm n (vminus b a).
Proof.
  rewrite (norm_ext n (vminus a b) (fun d => -1 * vminus b a d)) by (intros; unfold vminus; ring).
  rewrite norm_scale, Rabs_left by lra. ring.
Qed.

(* ------------------------------------------------------------- the curve *)
Lemma curve_cubic p t d : regular p -> 0 <= t <= 1 ->
  curve p t d = h_init p d + (3 * t * (1 - t) * (1 - t) * row p 1 d + 3 * t * t * (1 - t) * row p 2 d + t * t * t * (h_end p d - h_init p d)).
Proof.
  intros [Hd H0 H1 Hb Hf Hl] Ht. unfold curve, sp_compute, sp_len. rewrite H0, H1.
  destruct (reqb_spec (1 - 0) 0); [lra|]. replace ((t - 0) / (1 - 0)) with t by field.
  destruct (rltb_spec t 0); [lra|]. destruct (rltb_spec 1 t); [lra|].
  unfold sp_value, combine_par. rewrite Hd, Hb. f_equal. cbn [rsum].
  change (sp_par (h_spl p) 0) with (row p 0). change (sp_par (h_spl p) 1) with (row p 1).
  change (sp_par (h_spl p) 2) with (row p 2). change (sp_par (h_spl p) 3) with (row p 3).
  rewrite Hf, Hl. unfold bern_der, rsum_between. cbn -[INR]. rewrite ?INR_IZR_INZ. cbn. field.
Qed.
Lemma velocity_ends p d : regular p -> velocity_at p 0 d = get_v0 p d /\ velocity_at p 1 d = get_v1 p d.
Proof.
  intros [Hd H0 H1 Hb Hf Hl]. unfold velocity_at, sp_derivative, combine_par, basis_der, sp_ratio, sp_len, get_v0, get_v1. rewrite Hd, H0, H1.
  destruct (reqb_spec (1 - 0) 0); [lra|].
  change (sp_par (h_spl p)) with (row p). cbn [rsum]. unfold bern_der, rsum_between. cbn -[INR row]. rewrite ?INR_IZR_INZ. cbn -[row].
  split; field.
Qed.

(* the sum of the distances to the ends is at most the length of the polygon *)
Definition polygon (n : nat) (p : hermite) : R :=
  norm n (vminus (row p 1) (row p 0)) + norm n (vminus (row p 2) (row p 1)) + norm n (vminus (row p 3) (row p 2)).
Lemma norm3 n (a b c : R) (u v w x : vec) : 0 <= a -> 0 <= b -> 0 <= c -> (forall d, x d = a * u d + (b * v d + c * w d)) ->
  norm n x <= a * norm n u + b * norm n v + c * norm n w.
Proof.
  intros Ha Hb Hc E. rewrite (norm_ext n x _ E).
  pose proof (norm_add n (fun d => a * u d) (fun d => b * v d + c * w d)) as N1.
  pose proof (norm_add n (fun d => b * v d) (fun d => c * w d)) as N2. cbn beta in N1, N2.
  rewrite norm_scale, (Rabs_right a) in N1 by lra. rewrite !norm_scale, (Rabs_right b), (Rabs_right c) in N2 by lra. lra.
Qed.
Lemma curve_near n p t : regular p -> 0 <= t <= 1 ->
  norm n (vminus (curve p t) (h_init p)) + norm n (vminus (curve p t) (h_end p)) <= polygon n p.
Proof.
  intros R Ht. unfold polygon.
  set (u := vminus (row p 1) (row p 0)). set (v := vminus (row p 2) (row p 1)). set (w := vminus (row p 3) (row p 2)).
  set (s := 1 - t). assert (Hs : 0 <= s <= 1) by (unfold s; lra).
  set (a := 3 * t * s * s + 3 * t * t * s + t * t * t). set (b := 3 * t * t * s + t * t * t). set (c := t * t * t).
  assert (E3 : 1 - a = s * s * s) by (unfold a, s; ring).
  assert (T2 : 0 <= t * t) by nra. assert (S2 : 0 <= s * s) by nra. assert (T3 : 0 <= c) by (unfold c; apply Rmult_le_pos; lra).
  assert (S3 : 0 <= s * s * s) by (apply Rmult_le_pos; lra).
  assert (TS : 0 <= t * t * s) by (apply Rmult_le_pos; lra). assert (ST : 0 <= t * s * s) by (rewrite Rmult_assoc; apply Rmult_le_pos; lra).
  assert (T3' : 0 <= t * t * t) by exact T3.
  assert (N1 : norm n (vminus (curve p t) (h_init p)) <= a * norm n u + b * norm n v + c * norm n w).
  { apply norm3; [unfold a; lra | unfold b; lra | exact T3|]. intros d. unfold vminus, u, v, w. rewrite (curve_cubic p t d R Ht).
    destruct R as [_ _ _ _ Hf Hl]. unfold vminus. rewrite Hf, Hl. unfold a, b, c, s. ring. }
  assert (N2 : norm n (vminus (curve p t) (h_end p)) <= (1 - a) * norm n u + (1 - b) * norm n v + (1 - c) * norm n w).
  { rewrite norm_sym. apply norm3.
    - lra.
    - replace (1 - b) with (s * s * s + 3 * (t * s * s)) by (unfold b, s; ring). lra.
    - replace (1 - c) with (s * s * s + 3 * (t * s * s) + 3 * (t * t * s)) by (unfold c, s; ring). lra.
    - intros d. unfold vminus, u, v, w. rewrite (curve_cubic p t d R Ht).
      destruct R as [_ _ _ _ Hf Hl]. unfold vminus. rewrite Hf, Hl. unfold a, b, c, s. ring. }
  lra.
Qed.
Lemma between p : regular p -> between_ends p.
Proof. intros R. split; intros d; rewrite (curve_cubic p _ d R) by lra; ring. Qed.

Section S.
Variable n : nat.
Variable k : hcons.

Lemma regular_set_v0 p v : regular p -> regular (set_v0 p v).
Proof. intros [A B C D E F]. constructor; cbn; assumption. Qed.
Lemma regular_set_v1 p v : regular p -> regular (set_v1 p v).
Proof. intros [A B C D E F]. constructor; cbn; assumption. Qed.
Lemma regular_length p : regular p -> regular (compute_length n p).
Proof. intros [A B C D E F]. constructor; assumption. Qed.
Lemma regular_create q1 q2 : regular (hermite_create n k q1 q2).
Proof.
  unfold hermite_create. apply regular_set_v1, regular_set_v0. constructor; reflexivity.
Qed.
Lemma steer_some q1 q2 p : steer n k q1 q2 = Some p ->
  regular p /\ h_init p = q1 /\ h_end p = q2 /\ k_sat k q1 = true /\ k_sat k q2 = true.
Proof.
  unfold steer. destruct (k_sat k q1) eqn:E1, (k_sat k q2) eqn:E2; try discriminate. intros [= <-].
  split; [apply regular_length, regular_create|]. repeat split.
Qed.

(* a piece accepted *)
Record fine (thr : R) (p : hermite) : Prop := {
  f_regular : regular p; f_sat0 : k_sat k (h_init p) = true; f_sat1 : k_sat k (h_end p) = true;
  f_len : h_length p = polygon n p; f_thr : h_length p < thr }.
Lemma chain_app q l1 l2 q' m : chain q l1 m -> chain m l2 q' -> chain q (l1 ++ l2) q'.
Proof.
  revert q. induction l1 as [|p l IH]; intros q; cbn; [intros ->; auto|]. intros [E H] H2. split; [exact E | exact (IH _ H H2)].
Qed.

Hypothesis snd : sound k.
(* the state of the recursion *)
Record ready (p : hermite) : Prop := {
  r_regular : regular p; r_sat0 : k_sat k (h_init p) = true; r_sat1 : k_sat k (h_end p) = true;
  r_len : h_length p = polygon n p }.
Lemma ready_length p : regular p -> k_sat k (h_init p) = true -> k_sat k (h_end p) = true -> ready (compute_length n p).
Proof. intros R A B. constructor; [apply regular_length, R | exact A | exact B | reflexivity]. Qed.

(* directions: up to a positive factor *)
Definition prop_to (u v : vec) : Prop := exists a, 0 < a /\ forall d, a * u d = v d.
Lemma prop_to_half u v : prop_to u (vdiv v 2) -> prop_to u v.
Proof. intros [a [Ha H]]. exists (2 * a). split; [lra|]. intros d. rewrite Rmult_assoc, H. unfold vdiv. field. Qed.
Definition starts (v : vec) (l : list hermite) : Prop := match l with [] => True | p :: _ => prop_to (get_v0 p) v end.
Fixpoint ends (v : vec) (l : list hermite) : Prop :=
  match l with [] => True | [p] => prop_to (get_v1 p) v | _ :: l' => ends v l' end.
Lemma directions_app l1 l2 v : Forall regular l1 -> Forall regular l2 -> same_directions l1 -> same_directions l2 ->
  ends v l1 -> starts v l2 -> same_directions (l1 ++ l2).
Proof.
  intros R1 R2. induction R1 as [|p l Rp R1 IH]; [auto|]. intros D1 D2 E S. cbn [app].
  destruct l as [|p' l].
  - cbn [app]. destruct l2 as [|p2 l2]; [exact I|]. inversion R2 as [|? ? Rp2 _]; subst. cbn [same_directions]. split; [|exact D2].
    destruct E as [a [Ha E]], S as [b [Hb S]]. unfold parallel. exists a, b. split; [exact Ha|]. split; [exact Hb|]. intros d.
    rewrite (proj2 (velocity_ends p d Rp)), (proj1 (velocity_ends p2 d Rp2)), E, S. reflexivity.
  - destruct D1 as [J D1]. split; [exact J|]. exact (IH D1 D2 E S).
Qed.
Lemma starts_app v l1 l2 : l1 <> [] -> starts v l1 -> starts v (l1 ++ l2).
Proof. destruct l1; [contradiction | auto]. Qed.
Lemma ends_app v l1 l2 : l2 <> [] -> ends v l2 -> ends v (l1 ++ l2).
Proof.
  intros N. induction l1 as [|p l IH]; [auto|]. intros E. specialize (IH E). cbn [app ends]. destruct (l ++ l2) eqn:X; [|exact IH].
  apply app_eq_nil in X. tauto.
Qed.
Lemma starts_half v l : starts (vdiv v 2) l -> starts v l.
Proof. destruct l; [auto | apply prop_to_half]. Qed.
Lemma ends_half v l : ends (vdiv v 2) l -> ends v l.
Proof. induction l as [|p [|p' l] IH]; [auto | apply prop_to_half | exact IH]. Qed.
Lemma starts_ext u v l : (forall d, u d = v d) -> starts u l -> starts v l.
Proof. destruct l as [|p l]; [auto|]. intros E [a [Ha H]]. exists a. split; [exact Ha|]. intros d. rewrite H. apply E. Qed.
Lemma ends_ext u v l : (forall d, u d = v d) -> ends u l -> ends v l.
Proof.
  intros E. induction l as [|p [|p' l] IH]; [auto | | exact IH]. intros [a [Ha H]]. exists a. split; [exact Ha|]. intros d. rewrite H. apply E.
Qed.

Lemma both_v0 p u v d : get_v0 (compute_length n (set_v1 (set_v0 p u) v)) d = u d.
Proof.
  change (3 * (row p 0 d + u d / 3 - row p 0 d) = u d). field.
Qed.
Lemma both_v1 p u v d : get_v1 (compute_length n (set_v1 (set_v0 p u) v)) d = v d.
Proof.
  change (3 * (row p 3 d - (row p 3 d - v d / 3)) = v d). field.
Qed.

Lemma recurse_spec beta thr fuel : forall p, ready p ->
  recurse n k beta thr fuel p = Fuel \/
  exists ok l q, recurse n k beta thr fuel p = Ok (ok, l) /\ chain (h_init p) l q /\ Forall (fine thr) l /\
    (ok = true -> q = h_end p /\ l <> []) /\ same_directions l /\ starts (get_v0 p) l /\ (ok = true -> ends (get_v1 p) l).
Proof.
  induction fuel as [|fuel IH]; intros p Rp; [left; reflexivity|]. cbn [recurse].
  assert (One : prop_to (get_v0 p) (get_v0 p) /\ prop_to (get_v1 p) (get_v1 p)) by (split; exists 1; split; [lra | intros; ring | lra | intros; ring]).
  destruct (rltb_spec (h_length p) thr) as [Hl|Hl].
  { right. exists true, [p], (h_end p). split; [reflexivity|]. split; [cbn; auto|]. split.
    - constructor; [|constructor]. destruct Rp. constructor; assumption.
    - split; [intros _; split; [reflexivity | discriminate]|]. split; [exact I|]. split; [exact (proj1 One) | intros _; exact (proj2 One)]. }
  unfold h_velocity. destruct (h_eval k p (/ 2)) as [q1|] eqn:Ev.
  2:{ right. exists false, [], (h_init p). repeat split; try constructor; try discriminate. }
  cbn [bind]. assert (S1 : k_sat k q1 = true) by exact (snd _ _ Ev).
  assert (St : forall a b, k_sat k a = true -> k_sat k b = true -> exists h, steer n k a b = Some h /\ regular h /\ h_init h = a /\ h_end h = b).
  { intros a b A B. unfold steer. rewrite A, B. cbn [andb]. eexists. split; [reflexivity|]. split; [apply regular_length, regular_create|]. split; reflexivity. }
  destruct (St (h_init p) q1 (r_sat0 p Rp) S1) as [lp [-> [Rl [Il El]]]].
  destruct (St q1 (h_end p) S1 (r_sat1 p Rp)) as [rp [-> [Rr [Ir Er]]]].
  set (vh := vdiv (k_kernel k q1 (sp_derivative (h_spl p) (/ 2) 1)) 2).
  cbv zeta. fold vh. set (lp' := compute_length n _). set (rp' := compute_length n _).
  assert (Gl : ready lp').
  { apply ready_length; [apply regular_set_v1, regular_set_v0, Rl | cbn; rewrite Il; apply Rp | cbn; rewrite El; exact S1]. }
  assert (Gr : ready rp').
  { apply ready_length; [apply regular_set_v1, regular_set_v0, Rr | cbn; rewrite Ir; exact S1 | cbn; rewrite Er; apply Rp]. }
  assert (V0l : forall d, get_v0 lp' d = vdiv (get_v0 p) 2 d) by (intros d; apply both_v0).
  assert (V1l : forall d, get_v1 lp' d = vh d) by (intros d; apply both_v1).
  assert (V0r : forall d, get_v0 rp' d = vh d) by (intros d; apply both_v0).
  assert (V1r : forall d, get_v1 rp' d = vdiv (get_v1 p) 2 d) by (intros d; apply both_v1).
  assert (Nil : exists (ok : bool) l q, Ok (false, @nil hermite) = Ok (ok, l) /\ chain (h_init p) l q /\ Forall (fine thr) l /\
    (ok = true -> q = h_end p /\ l <> []) /\ same_directions l /\ starts (get_v0 p) l /\ (ok = true -> ends (get_v1 p) l)).
  { exists false, [], (h_init p). repeat split; try constructor; try discriminate. }
  destruct (XReal.rltb (beta * h_length p) (h_length lp')); [right; exact Nil|].
  destruct (IH lp' Gl) as [E | [ok [l [q [E [Cl [Fl [Ol [Dl [Sl Endl]]]]]]]]]]; rewrite E; cbn [bind]; [left; reflexivity|].
  change (h_init lp') with (h_init lp) in Cl. change (h_end lp') with (h_end lp) in Ol. rewrite Il in Cl. rewrite El in Ol.
  assert (Sl' : starts (get_v0 p) l) by (apply starts_half; apply (starts_ext (get_v0 lp')); assumption).
  assert (Half : exists (ok0 : bool) l0 q0, Ok (false, l) = Ok (ok0, l0) /\ chain (h_init p) l0 q0 /\ Forall (fine thr) l0 /\
    (ok0 = true -> q0 = h_end p /\ l0 <> []) /\ same_directions l0 /\ starts (get_v0 p) l0 /\ (ok0 = true -> ends (get_v1 p) l0)).
  { exists false, l, q. repeat split; try assumption; discriminate. }
  destruct ok; cbn [negb]; [|right; exact Half].
  destruct (XReal.rltb (beta * h_length p) (h_length rp')); [right; exact Half|].
  destruct (Ol eq_refl) as [-> Nl]. specialize (Endl eq_refl).
  destruct (IH rp' Gr) as [E2 | [ok2 [r [q2 [E2 [Cr [Fr [Or [Dr [Sr Endr]]]]]]]]]]; rewrite E2; cbn [bind]; [left; reflexivity|].
  change (h_init rp') with (h_init rp) in Cr. change (h_end rp') with (h_end rp) in Or. rewrite Ir in Cr. rewrite Er in Or.
  right. exists ok2, (l ++ r), q2. split; [reflexivity|]. split; [exact (chain_app _ _ _ _ _ Cl Cr)|].
  split; [apply Forall_app; split; assumption|]. split.
  { intros K. destruct (Or K) as [-> Nr]. split; [reflexivity|]. intros Z. apply app_eq_nil in Z. tauto. }
  split.
  { apply (directions_app l r vh); try assumption.
    - revert Fl. apply Forall_impl. intros x []; assumption.
    - revert Fr. apply Forall_impl. intros x []; assumption.
    - apply (ends_ext (get_v1 lp')); assumption.
    - apply (starts_ext (get_v0 rp')); assumption. }
  split; [apply starts_app; assumption|]. intros K. destruct (Or K) as [_ Nr]. apply ends_app; [exact Nr|].
  apply ends_half. apply (ends_ext (get_v1 rp')); [exact V1r | exact (Endr K)].
Qed.

Lemma recurse_S beta thr fuel p : recurse n k beta thr (S fuel) p =
  if XReal.rltb (h_length p) thr then Ok (true, [p])
  else
    match h_eval k p (/ 2) with
    | None => Ok (false, [])
    | Some q1 =>
        do v <- h_velocity k p (/ 2) ;
        let vHalf := vdiv v 2 in
        match steer n k (h_init p) q1 with
        | None => Throw
        | Some lp =>
            let lp := compute_length n (set_v1 (set_v0 lp (vdiv (get_v0 p) 2)) vHalf) in
            match steer n k q1 (h_end p) with
            | None => Throw
            | Some rp =>
                let rp := compute_length n (set_v1 (set_v0 rp vHalf) (vdiv (get_v1 p) 2)) in
                if XReal.rltb (beta * h_length p) (h_length lp) then Ok (false, [])
                else
                  do (ok, l) <- recurse n k beta thr fuel lp ;
                  if negb ok then Ok (false, l)
                  else if XReal.rltb (beta * h_length p) (h_length rp) then Ok (false, l)
                  else
                    do (ok', r) <- recurse n k beta thr fuel rp ;
                    Ok (ok', l ++ r)
            end
        end
    end.
Proof. reflexivity. Qed.
Lemma recurse_fuel beta thr fuel : 0 <= beta -> forall p, h_length p * beta ^ fuel < thr -> recurse n k beta thr (S fuel) p <> Fuel.
Proof.
  intros Hb. induction fuel as [|fuel IH]; intros p Hl; rewrite recurse_S.
  - cbn [pow] in Hl. rewrite Rmult_1_r in Hl. destruct (rltb_spec (h_length p) thr); [discriminate|contradiction].
  - destruct (XReal.rltb (h_length p) thr); [discriminate|]. unfold h_velocity. destruct (h_eval k p (/ 2)) as [q1|]; [|discriminate]. cbn [bind].
    destruct (steer n k (h_init p) q1) as [lp|]; [|discriminate]. destruct (steer n k q1 (h_end p)) as [rp|]; [|discriminate].
    cbv zeta. set (lp' := compute_length n _). set (rp' := compute_length n _).
    assert (P : 0 <= beta ^ fuel) by (apply pow_le, Hb). cbn [pow] in Hl.
    assert (G : forall h, h_length h <= beta * h_length p -> h_length h * beta ^ fuel < thr).
    { intros h Hh. apply Rle_lt_trans with (h_length p * (beta * beta ^ fuel)); [|exact Hl].
      replace (h_length p * (beta * beta ^ fuel)) with (beta * h_length p * beta ^ fuel) by ring. apply Rmult_le_compat_r; lra. }
    destruct (rltb_spec (beta * h_length p) (h_length lp')) as [|Ll]; [discriminate|].
    pose proof (IH lp' (G lp' ltac:(lra))) as F1. destruct (recurse n k beta thr (S fuel) lp') as [[ok l]| | |]; cbn [bind]; try discriminate; [|contradiction].
    destruct ok; cbn [negb]; [|discriminate].
    destruct (rltb_spec (beta * h_length p) (h_length rp')) as [|Lr]; [discriminate|].
    pose proof (IH rp' (G rp' ltac:(lra))) as F2. destruct (recurse n k beta thr (S fuel) rp') as [[ok r]| | |]; cbn [bind]; try discriminate. contradiction.
Qed.
Lemma recurse_mono beta thr fuel : forall p, recurse n k beta thr fuel p <> Fuel -> recurse n k beta thr (S fuel) p = recurse n k beta thr fuel p.
Proof.
  induction fuel as [|fuel IH]; intros p H; [exfalso; apply H; reflexivity|].
  rewrite (recurse_S beta thr (S fuel)). rewrite (recurse_S beta thr fuel) in H |- *.
  destruct (XReal.rltb (h_length p) thr); [reflexivity|]. unfold h_velocity in *. destruct (h_eval k p (/ 2)) as [q1|]; [|reflexivity]. cbn [bind] in *.
  destruct (steer n k (h_init p) q1) as [lp|]; [|reflexivity]. destruct (steer n k q1 (h_end p)) as [rp|]; [|reflexivity].
  cbv zeta in *. set (lp' := compute_length n (set_v1 (set_v0 lp _) _)) in *. clearbody lp'. set (rp' := compute_length n (set_v1 (set_v0 rp _) _)) in *. clearbody rp'.
  destruct (XReal.rltb (beta * h_length p) (h_length lp')); [reflexivity|].
  rewrite (IH lp') by (intros E; rewrite E in H; apply H; reflexivity).
  destruct (recurse n k beta thr fuel lp') as [[ok l]| | |]; cbn [bind] in *; try reflexivity.
  destruct ok; cbn [negb] in *; [|reflexivity]. destruct (XReal.rltb (beta * h_length p) (h_length rp')); [reflexivity|].
  rewrite (IH rp') by (intros E; rewrite E in H; apply H; reflexivity). reflexivity.
Qed.
Lemma recurse_ge beta thr f f' p : (f <= f')%nat -> recurse n k beta thr f p <> Fuel -> recurse n k beta thr f' p = recurse n k beta thr f p.
Proof.
  induction 1 as [|f' L IH]; [reflexivity|]. intros H. rewrite recurse_mono by (rewrite IH by exact H; exact H). exact (IH H).
Qed.
Lemma recurse_ends beta thr p : 0 <= beta < 1 -> 0 < thr -> exists N, forall f, (N <= f)%nat -> recurse n k beta thr f p <> Fuel.
Proof.
  intros Hb Ht. destruct (Rle_lt_dec (h_length p) 0) as [Hl|Hl].
  - exists 1%nat. intros f Hf. rewrite (recurse_ge beta thr 1 f p Hf); apply recurse_fuel; cbn [pow]; lra.
  - destruct (pow_lt_1_zero beta ltac:(rewrite Rabs_right; lra) (thr / h_length p) ltac:(apply Rdiv_lt_0_compat; lra)) as [N HN].
    specialize (HN N (le_n _)). rewrite Rabs_right in HN by (apply Rle_ge, pow_le; lra).
    exists (S N). intros f Hf. assert (K : recurse n k beta thr (S N) p <> Fuel).
    { apply recurse_fuel; [lra|]. replace thr with (h_length p * (thr / h_length p)) by (field; lra). apply Rmult_lt_compat_l; lra. }
    rewrite (recurse_ge beta thr (S N) f p Hf K). exact K.
Qed.

(* ------------------------------------------------------------- project *)
Definition usable (o : option hermite) : Prop := match o with None => True | Some p => regular p /\ k_sat k (h_init p) = true /\ k_sat k (h_end p) = true end.
(* the pieces form a chain; [q'] is the last end *)
Fixpoint ochain (q : vec) (ps : list (option hermite)) (q' : vec) : Prop :=
  match ps with
  | [] => q = q'
  | None :: _ => True
  | Some p :: ps' => h_init p = q /\ ochain (h_end p) ps' q'
  end.
Lemma steers_usable a l : Forall usable (steers n k a l) /\ ochain a (steers n k a l) (last l a).
Proof.
  revert a. induction l as [|b l IH]; intros a; [split; [constructor | reflexivity]|]. cbn [steers].
  destruct (IH b) as [U C]. split.
  - constructor; [|exact U]. destruct (steer n k a b) as [p|] eqn:E; [|exact I]. destruct (steer_some _ _ _ E) as [R [<- [<- S]]]. exact (conj R S).
  - cbn [ochain]. destruct (steer n k a b) as [p|] eqn:E; [|exact I]. destruct (steer_some _ _ _ E) as [R [I0 [I1 S]]]. split; [exact I0|]. rewrite I1.
    destruct l as [|c l]; [exact C|]. replace (last (b :: c :: l) a) with (last (c :: l) b); [exact C|].
    cbn [last]. clear. revert c. induction l as [|e l IH]; intros c; [reflexivity | exact (IH e)].
Qed.
Lemma loop_spec beta thr fuel : forall ps q q', Forall usable ps -> ochain q ps q' -> 
  forall ok l, project_loop n k beta thr fuel ps = Ok (ok, l) ->
  exists m, chain q l m /\ Forall (fine thr) l /\ (ok = true -> m = q').
Proof.
  induction ps as [|[p|] ps IH]; intros q q' U C ok l; cbn [project_loop]; [intros [= <- <-]; exists q; repeat split; [constructor | intros _; exact C] | | discriminate].
  inversion U as [|? ? Up U']; subst. destruct Up as [R [S0 S1]]. destruct C as [<- C]. pose proof (ready_length p R S0 S1) as Rd.
  set (p' := compute_length n p) in *. destruct (rltb_spec (h_length p') thr) as [Hl|Hl].
  - destruct (project_loop n k beta thr fuel ps) as [[ok2 r]| | |] eqn:E; cbn [bind]; try discriminate. intros [= <- <-].
    destruct (IH _ _ U' C _ _ eq_refl) as [m [Cm [F K]]]. exists m. split; [split; [reflexivity | exact Cm]|]. split; [|exact K].
    constructor; [|exact F]. destruct Rd. constructor; assumption.
  - destruct (recurse_spec beta thr fuel p' Rd) as [-> | [ok1 [l1 [q1 [-> [C1 [F1 [O1 _]]]]]]]]; cbn [bind]; [discriminate|].
    destruct ok1; cbn [negb].
    + destruct (O1 eq_refl) as [-> _]. destruct (project_loop n k beta thr fuel ps) as [[ok2 r]| | |] eqn:E; cbn [bind]; try discriminate. intros [= <- <-].
      destruct (IH _ _ U' C _ _ eq_refl) as [m [Cm [F K]]]. exists m. split; [exact (chain_app _ _ _ _ _ C1 Cm)|]. split; [|exact K].
      apply Forall_app; split; assumption.
    + intros [= <- <-]. exists q1. split; [exact C1|]. split; [exact F1 | discriminate].
Qed.
Lemma loop_single beta thr fuel p ok l : usable (Some p) -> project_loop n k beta thr fuel [Some p] = Ok (ok, l) ->
  same_directions l /\ starts (get_v0 p) l /\ (ok = true -> ends (get_v1 p) l).
Proof.
  intros [R [S0 S1]]. cbn [project_loop]. pose proof (ready_length p R S0 S1) as Rd.
  change (get_v0 p) with (get_v0 (compute_length n p)). change (get_v1 p) with (get_v1 (compute_length n p)).
  set (p' := compute_length n p) in *. destruct (rltb_spec (h_length p') thr) as [Hl|Hl].
  - cbn [bind]. intros [= <- <-]. split; [exact I|]. split; [|intros _]; exists 1; (split; [lra | intros; ring]).
  - destruct (recurse_spec beta thr fuel p' Rd) as [-> | [ok1 [l1 [q1 [-> [C1 [F1 [O1 D1]]]]]]]]; cbn [bind]; [discriminate|].
    destruct ok1; cbn [negb bind]; rewrite ?app_nil_r; intros [= <- <-]; exact D1.
Qed.
Lemma pieces_usable i : proper_input k i -> k_sat k (in_end i) = true ->
  Forall usable (pieces n k i) /\ ochain (in_init i) (pieces n k i) (in_end i).
Proof.
  destruct i as [p|a l|a b]; cbn [proper_input in_init in_end pieces].
  - intros [R S0] S1. split; [constructor; [exact (conj R (conj S0 S1)) | constructor] | split; reflexivity].
  - intros _ _. apply steers_usable.
  - intros _ _. exact (steers_usable a [b]).
Qed.
Lemma loop_total beta thr ps : 0 <= beta < 1 -> 0 < thr -> Forall (fun o => o <> None) ps -> Forall usable ps ->
  exists N r, forall f, (N <= f)%nat -> project_loop n k beta thr f ps = Ok r.
Proof.
  intros Hb Ht. induction ps as [|[p|] ps IH]; intros NN U; [exists O, (true, []); reflexivity | | inversion NN; contradiction].
  inversion U as [|? ? Up U']; subst. destruct Up as [R [S0 S1]]. inversion NN as [|? ? _ NN']; subst. destruct (IH NN' U') as [N [[ok r] HN]].
  pose proof (ready_length p R S0 S1) as Rd. set (p' := compute_length n p) in *.
  destruct (rltb_spec (h_length p') thr) as [Hl|Hl].
  - exists N, (ok, p' :: r). intros f Hf. cbn [project_loop]. fold p'. destruct (rltb_spec (h_length p') thr); [|contradiction].
    rewrite (HN f Hf). reflexivity.
  - destruct (recurse_ends beta thr p' Hb Ht) as [N1 H1].
    destruct (recurse_spec beta thr N1 p' Rd) as [E | [ok1 [l1 [q1 [E _]]]]]; [exfalso; exact (H1 N1 (le_n _) E)|].
    exists (Nat.max N N1). eexists. intros f Hf. cbn [project_loop]. fold p'. destruct (rltb_spec (h_length p') thr); [contradiction|].
    rewrite (recurse_ge beta thr N1 f p' ltac:(lia)) by (apply H1, le_n). rewrite E, (HN f ltac:(lia)). cbn [bind].
    instantiate (1 := if ok1 then (ok, l1 ++ r) else (false, l1)). destruct ok1; reflexivity.
Qed.
End S.

Section T.
Variable n : nat.
Variable k : hcons.
Lemma fine_good thr p : fine n k thr p -> good_piece n k thr p.
Proof.
  intros [R A B L T]. constructor; [exact (between p R) | exact A | exact B | rewrite L in T; exact T|].
  intros t Ht. pose proof (curve_near n p t R Ht) as N. rewrite <- L in N. lra.
Qed.
Lemma project_inv eps M beta fuel i ok w : sound k -> proper_input k i -> project n k eps M beta fuel i = Ok (ok, w) ->
  (w = Nothing /\ ok = false /\ k_sat k (in_end i) = false) \/ (w = Same /\ ok = true /\ k_dim0 k = true) \/
  exists l q, project_loop n k beta (2 * eps / M) fuel (pieces n k i) = Ok (ok, l) /\
    chain (in_init i) l q /\ Forall (fine n k (2 * eps / M)) l /\ (ok = true -> q = in_end i) /\
    (w = Pieces l \/ (w = Beginning /\ l = [] /\ ok = false)).
Proof.
  intros Sd P. unfold project. destruct (k_sat k (in_end i)) eqn:S1; cbn [negb]; [|intros [= <- <-]; left; auto].
  destruct (k_dim0 k); [intros [= <- <-]; right; left; auto|].
  destruct (project_loop n k beta (2 * eps / M) fuel (pieces n k i)) as [[ok1 l]| | |] eqn:E; cbn [bind]; try discriminate.
  intros [= <- <-]. right; right. destruct (pieces_usable n k i P S1) as [U C].
  destruct (loop_spec n k Sd _ _ _ _ _ _ U C _ _ E) as [q [Cq [F K]]]. exists l, q. split; [reflexivity|]. split; [exact Cq|]. split; [exact F|]. split; [exact K|].
  destruct ok1; [left; reflexivity|]. destruct l; [right; auto | left; reflexivity].
Qed.
Lemma parallel_of u v w : prop_to u w -> prop_to v w -> parallel u v.
Proof. intros [a [Ha H]] [b [Hb K]]. exists a, b. split; [exact Ha|]. split; [exact Hb|]. intros d. rewrite H, K. reflexivity. Qed.
End T.

(* --------------------------------------------------------- free segments *)
Section Free.
Variable n : nat.
Variable k : hcons.
Variables a b : vec.
Hypothesis free : free_segment k a b.
Record line (s0 s1 : R) (p : hermite) : Prop := {
  li_reg : regular p; li_range : 0 <= s0 <= s1 /\ s1 <= 1;
  li_init : h_init p = segment a b s0; li_end : h_end p = segment a b s1;
  li_1 : forall d, row p 1 d = / 3 * (s1 - s0) * (b d - a d);
  li_2 : forall d, row p 2 d = 2 / 3 * (s1 - s0) * (b d - a d) }.
Lemma line_polygon s0 s1 p : line s0 s1 p -> polygon n p = (s1 - s0) * norm n (vminus b a).
Proof.
  intros [R [H0 H1] I0 I1 L1 L2]. unfold polygon.
  assert (E : forall u : vec, (forall d, u d = / 3 * (s1 - s0) * vminus b a d) -> norm n u = / 3 * (s1 - s0) * norm n (vminus b a)).
  { intros u Hu. rewrite (norm_ext n u _ Hu), norm_scale, Rabs_right by (apply Rle_ge; lra). reflexivity. }
  rewrite (E (vminus (row p 1) (row p 0))), (E (vminus (row p 2) (row p 1))), (E (vminus (row p 3) (row p 2))); [field | | |]; intros d; unfold vminus; rewrite ?(reg_first p R), ?(reg_last p R), ?L1, ?L2, ?I0, ?I1; unfold segment; field.
Qed.
Lemma line_create s0 s1 : 0 <= s0 <= s1 -> s1 <= 1 -> exists p, steer n k (segment a b s0) (segment a b s1) = Some p /\ line s0 s1 p.
Proof.
  intros H0 H1. unfold steer. destruct (free s0 ltac:(lra)) as [A0 [_ K0]], (free s1 ltac:(lra)) as [A1 [_ K1]]. rewrite A0, A1. cbn [andb].
  eexists. split; [reflexivity|].
  assert (V : exists s, forall d, vminus (segment a b s1) (segment a b s0) d = s * (b d - a d)).
  { exists (s1 - s0). intros d. unfold vminus, segment. ring. }
  constructor; [apply regular_length, regular_create | lra | reflexivity | reflexivity | |]; intros d; unfold row; cbn.
  - rewrite (K0 _ V). unfold vminus, segment. field.
  - rewrite (K1 _ V). unfold vminus, segment. field.
Qed.
Lemma line_set s0 s1 p u v : line s0 s1 p -> (forall d, u d = (s1 - s0) * (b d - a d)) -> (forall d, v d = (s1 - s0) * (b d - a d)) ->
  line s0 s1 (compute_length n (set_v1 (set_v0 p u) v)).
Proof.
  intros [R H I0 I1 L1 L2] Hu Hv. constructor; [apply regular_length, regular_set_v1, regular_set_v0, R | exact H | exact I0 | exact I1 | |]; intros d; unfold row; cbn.
  - pose proof (reg_first p R d) as F. unfold row in F |- *. rewrite Hu, F. field.
  - pose proof (reg_last p R d) as F. unfold row in F |- *. rewrite Hv, F, I0, I1. unfold segment. field.
Qed.
Lemma line_velocity s0 s1 p : line s0 s1 p -> forall d, sp_derivative (h_spl p) (/ 2) 1 d = (s1 - s0) * (b d - a d).
Proof.
  intros [R H I0 I1 L1 L2] d. pose proof (reg_first p R d) as F0. pose proof (reg_last p R d) as F3. specialize (L1 d). specialize (L2 d). unfold row in *.
  rewrite I0, I1 in F3. unfold segment in F3.
  destruct R as [Hd H0 H1 _ _ _]. unfold sp_derivative, combine_par, basis_der, sp_ratio, sp_len. rewrite Hd, H0, H1.
  destruct (reqb_spec (1 - 0) 0); [lra|]. cbn. rewrite F0, F3, L1, L2. field.
Qed.
Lemma line_mid s0 s1 p : line s0 s1 p -> sp_compute (h_spl p) (/ 2) = segment a b ((s0 + s1) / 2).
Proof.
  intros [R H I0 I1 L1 L2]. apply functional_extensionality. intros d. change (curve p (/ 2) d = segment a b ((s0 + s1) / 2) d).
  rewrite (curve_cubic p _ d R) by lra. rewrite L1, L2, I0, I1. unfold segment. field.
Qed.
Lemma recurse_line beta thr fuel : / 2 <= beta -> forall s0 s1 p, line s0 s1 p -> h_length p = polygon n p ->
  h_length p * (/ 2) ^ fuel < thr -> exists l, recurse n k beta thr (S fuel) p = Ok (true, l).
Proof.
  intros Hb. induction fuel as [|fuel IH]; intros s0 s1 p L Len Hl; rewrite recurse_S.
  { cbn [pow] in Hl. rewrite Rmult_1_r in Hl. destruct (rltb_spec (h_length p) thr); [|contradiction]. exists [p]. reflexivity. }
  destruct (XReal.rltb (h_length p) thr); [exists [p]; reflexivity|].
  set (m := (s0 + s1) / 2). assert (Hr := li_range _ _ _ L).
  assert (M : 0 <= m <= 1) by (unfold m; lra). destruct (free m M) as [_ [Ap Ke]].
  unfold h_velocity, h_eval. rewrite (line_mid s0 s1 p L). fold m. rewrite Ap. cbn [bind].
  rewrite (li_init _ _ _ L), (li_end _ _ _ L).
  destruct (line_create s0 m ltac:(unfold m; lra) ltac:(lra)) as [lp [-> Ll]].
  destruct (line_create m s1 ltac:(unfold m; lra) ltac:(lra)) as [rp [-> Lr]]. cbv zeta.
  assert (VH : forall d, vdiv (k_kernel k (segment a b m) (sp_derivative (h_spl p) (/ 2) 1)) 2 d = (m - s0) * (b d - a d)).
  { intros d. unfold vdiv. rewrite Ke by (exists (s1 - s0); apply (line_velocity _ _ _ L)). rewrite (line_velocity _ _ _ L). unfold m. field. }
  assert (V0 : forall d, vdiv (get_v0 p) 2 d = (m - s0) * (b d - a d)).
  { intros d. unfold vdiv, get_v0. rewrite (li_1 _ _ _ L), (reg_first p (li_reg _ _ _ L)). unfold m. field. }
  assert (V1 : forall d, vdiv (get_v1 p) 2 d = (m - s0) * (b d - a d)).
  { intros d. unfold vdiv, get_v1. rewrite (li_2 _ _ _ L), (reg_last p (li_reg _ _ _ L)), (li_init _ _ _ L), (li_end _ _ _ L). unfold m, segment. field. }
  set (vh := vdiv (k_kernel k _ _) 2) in *. clearbody vh.
  pose proof (line_set s0 m lp _ vh Ll V0 VH) as Ll'.
  pose proof (line_set m s1 rp vh (vdiv (get_v1 p) 2) Lr ltac:(intros d; rewrite VH; unfold m; field) ltac:(intros d; rewrite V1; unfold m; field)) as Lr'.
  set (lp' := compute_length n (set_v1 (set_v0 lp _) _)) in *. set (rp' := compute_length n (set_v1 (set_v0 rp _) _)) in *.
  assert (El : h_length lp' = polygon n lp') by reflexivity. assert (Er : h_length rp' = polygon n rp') by reflexivity.
  pose proof (line_polygon _ _ _ Ll') as Pl. pose proof (line_polygon _ _ _ Lr') as Pr. pose proof (line_polygon _ _ _ L) as Pp.
  assert (N0 : 0 <= h_length p) by (rewrite Len, Pp; apply Rmult_le_pos; [lra | apply sqrt_pos]).
  assert (Hl2 : h_length lp' = h_length p / 2) by (rewrite El, Pl, Len, Pp; unfold m; field).
  assert (Hr2 : h_length rp' = h_length p / 2) by (rewrite Er, Pr, Len, Pp; unfold m; field).
  assert (St : h_length p / 2 <= beta * h_length p).
  { replace (h_length p / 2) with (/ 2 * h_length p) by field. apply Rmult_le_compat_r; lra. }
  cbn [pow] in Hl. assert (Hh : h_length p / 2 * (/ 2) ^ fuel < thr) by (unfold Rdiv; rewrite Rmult_assoc; exact Hl).
  destruct (rltb_spec (beta * h_length p) (h_length lp')); [exfalso; lra|].
  destruct (IH _ _ lp' Ll' El ltac:(rewrite Hl2; exact Hh)) as [l ->]. cbn [bind negb].
  destruct (rltb_spec (beta * h_length p) (h_length rp')); [exfalso; lra|].
  destruct (IH _ _ rp' Lr' Er ltac:(rewrite Hr2; exact Hh)) as [r ->]. cbn [bind]. exists (l ++ r). reflexivity.
Qed.
Lemma project_line eps M beta : k_dim0 k = false -> 0 < eps -> 0 < M -> / 2 <= beta ->
  exists N l, forall fuel, (N <= fuel)%nat -> project n k eps M beta fuel (IOther a b) = Ok (true, Pieces l).
Proof.
  intros D He HM Hb. assert (Ea : segment a b 0 = a) by (apply functional_extensionality; intros d; unfold segment; ring).
  assert (Eb : segment a b 1 = b) by (apply functional_extensionality; intros d; unfold segment; ring).
  destruct (line_create 0 1 ltac:(lra) ltac:(lra)) as [p [Sp Lp]]. rewrite Ea, Eb in Sp.
  assert (Sb : k_sat k b = true) by (rewrite <- Eb; apply free; lra).
  assert (T : 0 < 2 * eps / M) by (apply Rdiv_lt_0_compat; lra).
  unfold project. cbn [in_end pieces]. rewrite Sb, D, Sp. cbn [negb project_loop]. cbv zeta.
  set (p' := compute_length n p). assert (Lp' : line 0 1 p') by (destruct Lp as [R H I0 I1 L1 L2]; constructor; try assumption; apply regular_length, R).
  assert (Len : h_length p' = polygon n p') by reflexivity. clearbody p'.
  assert (N0 : 0 <= h_length p') by (rewrite Len, (line_polygon _ _ _ Lp'); apply Rmult_le_pos; [lra | apply sqrt_pos]).
  assert (X : exists N, h_length p' * (/ 2) ^ N < 2 * eps / M).
  { destruct (pow_lt_1_zero (/ 2) ltac:(rewrite Rabs_right; lra) (2 * eps / M / (h_length p' + 1)) ltac:(apply Rdiv_lt_0_compat; lra)) as [N HN].
    exists N. specialize (HN N (le_n _)). rewrite Rabs_right in HN by (apply Rle_ge, pow_le; lra). assert (P : 0 < (/ 2) ^ N) by (apply pow_lt; lra).
    apply Rlt_trans with ((h_length p' + 1) * (/ 2) ^ N); [apply Rmult_lt_compat_r; lra|].
    replace (2 * eps / M) with ((h_length p' + 1) * (2 * eps / M / (h_length p' + 1))) by (field; lra). apply Rmult_lt_compat_l; lra. }
  destruct X as [N HN]. destruct (rltb_spec (h_length p') (2 * eps / M)) as [Hl|Hl].
  - exists O, [p']. reflexivity.
  - destruct (recurse_line beta (2 * eps / M) N Hb _ _ p' Lp' Len HN) as [l E]. exists (S N), (l ++ []). intros fuel Hf.
    rewrite (recurse_ge n k beta _ (S N) fuel p' Hf) by (rewrite E; discriminate). rewrite E. reflexivity.
Qed.
End Free.
