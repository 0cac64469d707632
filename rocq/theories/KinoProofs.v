(* Proofs about KinoModel. *)
From Coq Require Import Reals List Lra Lia.
From Verif Require Import Base XReal KinoModel KinoSpec PolyProofs.
Import ListNotations.
Open Scope R_scope.

Ltac kcase :=
  repeat match goal with
  | |- context [rleb ?a ?b] => destruct (rleb_spec a b)
  | |- context [rltb ?a ?b] => destruct (rltb_spec a b)
  | |- context [reqb ?a ?b] => destruct (reqb_spec a b)
  end.

(* the motion law of an axis in closed form on each phase *)
Lemma axis_start L x : axis_ok L x -> x_ (axis_at x 0) = x_ (si x) /\ v_ (axis_at x 0) = v_ (si x).
Proof.
  intros [A0 A1 Av A2 AS AL AV AP]. unfold axis_at. kcase; cbn; split; nra.
Qed.

Lemma axis_end L x : axis_ok L x -> x_ (axis_at x L) = x_ (se x) /\ v_ (axis_at x L) = v_ (se x).
Proof.
  intros [A0 A1 Av A2 AS AL AV AP]. unfold axis_at.
  destruct (Rle_lt_or_eq_dec _ _ Av) as [Hv|Hv].
  - specialize (AL Hv). rewrite AV, AP, AL.
    kcase; cbn; try lra.
    + assert (t2 x = 0) as -> by lra. assert (tv x = L - t0 x - t1 x) as -> by lra. split; field.
    + assert (L - tv x - t1 x - t0 x = t2 x) as -> by lra. split; field.
  - clear AL. rewrite AV, AP. rewrite <- Hv in *.
    kcase; cbn; try lra.
    + assert (t1 x = 0) as -> by lra. assert (t2 x = 0) as -> by lra. assert (t0 x = L) as -> by lra. split; field.
    + assert (t2 x = 0) as -> by lra. assert (t1 x = L - t0 x) as -> by lra. split; field.
    + assert (L - 0 - t1 x - t0 x = t2 x) as -> by lra. split; field.
Qed.

Definition with_phases (x : axis) (s s' : st) (d : R * R * R * R) : axis :=
  let '(n0, n1, nv, n2) := d in mkAxis s s' (a1 x) n0 n1 nv n2 (vlim x).

Lemma st_eq a b c a' b' c' : a = a' -> b = b' -> c = c' -> mkSt a b c = mkSt a' b' c'.
Proof. intros -> -> ->. reflexivity. Qed.

Ltac kill := try (exfalso; lra).
Ltac alg := first [lra | ring | field | nra].

Lemma front_ok L x a q : axis_ok L x -> 0 <= a <= L ->
  x_ q = x_ (axis_at x a) -> v_ q = v_ (axis_at x a) ->
  let y := with_phases x q (se x) (trim_front x a) in
  axis_ok (L - a) y /\ forall t, 0 < t -> axis_at y t = axis_at x (a + t).
Proof.
  intros [A0 A1 Av A2 AS AL AV AP] Ha Hx Hv.
  destruct x as [i e c d0 d1 dv d2 w]; destruct i as [xi vi ai]; destruct e as [xe ve ae]; destruct q as [xq vq aq].
  cbn [si se x_ v_ ac_ a1 t0 t1 tv t2 vlim] in *.
  unfold trim_front, axis_at in *; cbn [si se x_ v_ ac_ a1 t0 t1 tv t2 vlim] in *.
  (* phase of [a] *)
  destruct (rleb_spec (d0 - a) 0) as [B0|B0].
  2:{ revert Hx Hv. destruct (rleb_spec a d0); kill. cbn. intros -> ->. split.
      - constructor; cbn; try lra; try tauto; try nra.
      - intros t Ht. cbn. kcase; kill; apply st_eq; alg. }
  destruct (rleb_spec (d1 - (a - d0)) 0) as [B1|B1].
  2:{ assert (xq = 1/2 * (a - d0) * (a - d0) * c + (a - d0) * vi + xi + d0 * vi) as E1.
      { rewrite Hx. destruct (rleb_spec a d0); cbn. { assert (a = d0) as -> by lra. ring. }
        destruct (rleb_spec a (d0 + d1)); kill. reflexivity. }
      assert (vq = (a - d0) * c + vi) as E2.
      { rewrite Hv. destruct (rleb_spec a d0); cbn. { assert (a = d0) as -> by lra. ring. }
        destruct (rleb_spec a (d0 + d1)); kill. reflexivity. }
      clear Hx Hv. subst xq vq. split.
      - constructor; cbn; try lra; try (intros H; rewrite (AL H); ring); try (rewrite AP; field).
      - intros t Ht. cbn. kcase; kill; apply st_eq; alg. }
  destruct (rleb_spec (dv - (a - d0 - d1)) 0) as [Bv|Bv].
  2:{ assert (0 < dv) as Hdv by lra. specialize (AL Hdv).
      assert (xq = 1/2 * d1 * d1 * c + d1 * vi + xi + d0 * vi + (a - d0 - d1) * w) as E1.
      { rewrite Hx. destruct (rleb_spec a d0); cbn. { assert (a = d0) as -> by lra. assert (d1 = 0) as -> by lra. ring. }
        destruct (rleb_spec a (d0 + d1)); cbn. { assert (a = d0 + d1) as -> by lra. ring. }
        destruct (rleb_spec a (d0 + d1 + dv)); kill. reflexivity. }
      assert (vq = w) as E2.
      { rewrite Hv, AL. destruct (rleb_spec a d0); cbn. { assert (d1 = 0) as -> by lra. ring. }
        destruct (rleb_spec a (d0 + d1)); cbn. { assert (a = d0 + d1) as -> by lra. ring. }
        destruct (rleb_spec a (d0 + d1 + dv)); kill. cbn. lra. }
      clear Hx Hv. subst xq vq. split.
      - constructor; cbn; try lra; try (rewrite AP, AL; field).
      - intros t Ht. cbn. kcase; kill; apply st_eq; alg. }
  destruct (rltb_spec (d2 - (a - d0 - d1 - dv)) 0) as [B2|B2]; kill.
  (* last phase *)
  set (s := a - dv - d1 - d0) in *.
  assert (w = vi + c * d1 \/ dv = 0) as Hw by (destruct (Rle_lt_or_eq_dec _ _ Av); [left; auto|right; auto]).
  assert (xq = 1/2 * d1 * d1 * c + d1 * vi + xi + d0 * vi + dv * w - 1/2 * s * s * c + s * (vi + c * d1)
          /\ vq = vi + c * d1 - s * c) as [E1 E2].
  { rewrite Hx, Hv. unfold s.
    destruct (rleb_spec a d0); cbn.
    { assert (a = d0) as -> by lra. assert (d1 = 0) as -> by lra. assert (dv = 0) as -> by lra. split; field. }
    destruct (rleb_spec a (d0 + d1)); cbn.
    { assert (dv = 0) as -> by lra. assert (a = d0 + d1) as -> by lra. split; field. }
    destruct (rleb_spec a (d0 + d1 + dv)); cbn.
    { assert (a = d0 + d1 + dv) as -> by lra. destruct Hw as [Hw|Hw]; [|lra]. rewrite Hw. split; field. }
    destruct (rleb_spec a (d0 + d1 + dv + d2)); kill. cbn. destruct (rltb_spec 0 dv).
    - rewrite AL by assumption. split; field.
    - split; field. }
  clear Hx Hv. subst xq vq. split.
  - constructor; cbn; unfold s; try lra; try (rewrite AP; destruct Hw as [->| ->]; field).
  - intros t Ht. cbn. unfold s. kcase; kill; apply st_eq; try rewrite AL by assumption; alg.
Qed.

Lemma back_ok L x b q : axis_ok L x -> 0 <= b <= L ->
  x_ q = x_ (axis_at x b) -> v_ q = v_ (axis_at x b) ->
  let y := with_phases x (si x) q (trim_back (t0 x, t1 x, tv x, t2 x) (L - b)) in
  axis_ok b y /\ forall t, t < b -> axis_at y t = axis_at x t.
Proof.
  intros Hok Hb Hx Hv. destruct (Rle_lt_or_eq_dec 0 b) as [Hb0|Hb0]; [lra| |].
  2:{ subst b. pose proof (axis_start _ _ Hok) as [S1 S2]. rewrite S1 in Hx. rewrite S2 in Hv.
      destruct Hok as [A0 A1 Av A2 AS AL AV AP]. unfold trim_back, with_phases.
      kcase; kill; cbn; try (assert (t0 x - (L - 0 - t2 x - tv x - t1 x) = 0) as -> by lra);
        (split; [constructor; cbn; try lra; nra|]);
        intros t Ht; unfold axis_at; cbn; kcase; kill; reflexivity || (exfalso; lra). }
  destruct Hok as [A0 A1 Av A2 AS AL AV AP].
  destruct x as [i e c d0 d1 dv d2 w]; destruct i as [xi vi ai]; destruct e as [xe ve ae]; destruct q as [xq vq aq].
  cbn [si se x_ v_ ac_ a1 t0 t1 tv t2 vlim] in *.
  unfold trim_back, axis_at in *; cbn [si se x_ v_ ac_ a1 t0 t1 tv t2 vlim] in *.
  destruct (rleb_spec (d2 - (L - b)) 0) as [B2|B2].
  2:{ revert Hx Hv. cbn. kcase; kill; cbn; intros -> ->.
      - rewrite AL by assumption. split; [constructor; cbn; try lra; try (intros; lra); try nra|]; intros; kcase; kill; apply st_eq; alg.
      - assert (dv = 0) as -> by lra. split; [constructor; cbn; try lra; try (intros; lra); try nra|]; intros; kcase; kill; apply st_eq; alg. }
  destruct (rleb_spec (dv - (L - b - d2)) 0) as [Bv|Bv].
  2:{ assert (0 < dv) as Hdv by lra. specialize (AL Hdv).
      revert Hx Hv. cbn. kcase; kill; cbn; intros -> ->.
      all: rewrite AL; split; [constructor; cbn; try lra; try (intros; lra); try nra|]; intros; kcase; kill; apply st_eq; alg. }
  destruct (rleb_spec (d1 - (L - b - d2 - dv)) 0) as [B1|B1].
  2:{ revert Hx Hv. cbn. kcase; kill; cbn; intros -> ->.
      all: split; [constructor; cbn; try lra; try (intros; lra); try nra|]; intros; kcase; kill; apply st_eq; alg. }
  destruct (rltb_spec (d0 - (L - b - d2 - dv - d1)) 0) as [B0|B0]; kill.
  revert Hx Hv. cbn. kcase; kill; cbn; intros -> ->.
  all: split; [constructor; cbn; try lra; try (intros; lra); try nra|]; intros; kcase; kill; apply st_eq; alg.
Qed.

Lemma axis_extract_ok L x a b q1 q2 : axis_ok L x -> 0 <= a -> a < b -> b <= L ->
  x_ q1 = x_ (axis_at x a) -> v_ q1 = v_ (axis_at x a) ->
  x_ q2 = x_ (axis_at x b) -> v_ q2 = v_ (axis_at x b) ->
  let y := axis_extract L a b x q1 q2 in
  axis_ok (b - a) y /\ x_ (si y) = x_ q1 /\ v_ (si y) = v_ q1 /\ x_ (se y) = x_ q2 /\ v_ (se y) = v_ q2 /\
  forall t, 0 < t < b - a -> axis_at y t = axis_at x (a + t).
Proof.
  intros Hok Ha Hab Hb X1 V1 X2 V2 y.
  destruct (front_ok L x a (no_acc q1) Hok) as [F1 F2]; [lra|exact X1|exact V1|].
  set (y0 := with_phases x (no_acc q1) (se x) (trim_front x a)) in *.
  assert (axis_at y0 (b - a) = axis_at x b) as E.
  { rewrite F2 by lra. f_equal. lra. }
  destruct (back_ok (L - a) y0 (b - a) (no_acc q2) F1) as [B1 B2]; [lra|rewrite E; exact X2|rewrite E; exact V2|].
  assert (y = with_phases y0 (si y0) (no_acc q2) (trim_back (t0 y0, t1 y0, tv y0, t2 y0) (L - a - (b - a)))) as Ey.
  { unfold y, axis_extract, y0. rewrite Rminus_0_r. destruct (trim_front x a) as [[[n0 n1] nv] n2]. cbn.
    replace (L - a - (b - a)) with (L - b) by ring.
    destruct (trim_back (n0, n1, nv, n2) (L - b)) as [[[m0 m1] mv] m2]. reflexivity. }
  rewrite Ey. split; [exact B1|].
  assert (forall z s s' d, si (with_phases z s s' d) = s /\ se (with_phases z s s' d) = s') as W.
  { intros z s s' [[[? ?] ?] ?]. split; reflexivity. }
  destruct (W y0 (si y0) (no_acc q2) (trim_back (t0 y0, t1 y0, tv y0, t2 y0) (L - a - (b - a)))) as [-> ->].
  destruct (W x (no_acc q1) (se x) (trim_front x a)) as [W1 _]. fold y0 in W1.
  split; [rewrite W1; reflexivity|]. split; [rewrite W1; reflexivity|]. do 2 (split; [reflexivity|]). intros t Ht. rewrite B2 by lra. apply F2. lra.
Qed.

(* states of the axes of a configuration of the path *)
Definition state_at (p : kpath) (t : R) (x : axis) : st :=
  if reqb t 0 || reqb (klen p) 0 then si x else if reqb t (klen p) then se x else axis_at x t.

Lemma trans_compute p t : trans (kcompute p t) = map (state_at p t) (axes p).
Proof.
  unfold kcompute, state_at. destruct (reqb t 0 || reqb (klen p) 0); [reflexivity|].
  destruct (reqb t (klen p)); reflexivity.
Qed.

Lemma state_at_ok p t x : axis_ok (klen p) x -> 0 <= t <= klen p ->
  x_ (state_at p t x) = x_ (axis_at x t) /\ v_ (state_at p t x) = v_ (axis_at x t).
Proof.
  intros Hok Ht. unfold state_at.
  destruct (reqb_spec t 0) as [->|]; cbn [orb].
  { destruct (axis_start _ _ Hok). split; congruence. }
  destruct (reqb_spec (klen p) 0); cbn [orb]; [exfalso; lra|].
  destruct (reqb_spec t (klen p)) as [->|]; [|split; reflexivity].
  destruct (axis_end _ _ Hok). split; congruence.
Qed.

Lemma rest_compute p t : 0 < klen p -> rest (kcompute p t) = map (lin (t / klen p)) (others p).
Proof.
  intros HL. unfold kcompute, kinit, kend.
  destruct (reqb_spec t 0) as [->|]; cbn [orb].
  { cbn. apply map_ext. intros [u v]. unfold lin. cbn. field. lra. }
  destruct (reqb_spec (klen p) 0); cbn [orb]; [exfalso; lra|].
  destruct (reqb_spec t (klen p)) as [->|]; cbn; [|reflexivity].
  apply map_ext. intros [u v]. unfold lin. cbn. field. lra.
Qed.

Lemma extract_axes_map L a b g1 g2 l :
  extract_axes L a b l (map g1 l) (map g2 l) = map (fun x => axis_extract L a b x (g1 x) (g2 x)) l.
Proof. induction l; cbn; congruence. Qed.

Lemma combine_map A B C (f : A -> B) (g : A -> C) l : combine (map f l) (map g l) = map (fun x => (f x, g x)) l.
Proof. induction l; cbn; congruence. Qed.

Definition new_path (p : kpath) (a b : R) : kpath :=
  mkK (Rabs (b - a)) (extract_axes (klen p) a b (axes p) (trans (kcompute p a)) (trans (kcompute p b)))
      (combine (rest (kcompute p a)) (rest (kcompute p b))).

Lemma new_path_ok p a b : path_ok p -> 0 <= a -> a < b -> b <= klen p ->
  klen (new_path p a b) = b - a /\ path_ok (new_path p a b) /\ forall t, 0 <= t <= b - a ->
    same_motion (kcompute (new_path p a b) t) (kcompute p (a + t)) /\ (0 < t < b - a -> map ac_ (trans (kcompute (new_path p a b) t)) = map ac_ (trans (kcompute p (a + t)))).
Proof.
  intros [HL Hx] Ha Hab Hb. unfold new_path. rewrite Rabs_right by lra. rewrite !trans_compute, extract_axes_map.
  rewrite !rest_compute by lra. rewrite combine_map.
  set (g1 := state_at p a). set (g2 := state_at p b).
  set (y := fun x => axis_extract (klen p) a b x (g1 x) (g2 x)).
  assert (forall x, In x (axes p) -> 
      axis_ok (b - a) (y x) /\ x_ (si (y x)) = x_ (axis_at x a) /\ v_ (si (y x)) = v_ (axis_at x a) /\
      x_ (se (y x)) = x_ (axis_at x b) /\ v_ (se (y x)) = v_ (axis_at x b) /\
      forall t, 0 < t < b - a -> axis_at (y x) t = axis_at x (a + t)) as Hax.
  { intros x Hin. rewrite Forall_forall in Hx; specialize (Hx x Hin).
    destruct (state_at_ok p a x Hx) as [E1 E2]; [lra|]. destruct (state_at_ok p b x Hx) as [E3 E4]; [lra|].
    rewrite <- E1, <- E2, <- E3, <- E4. apply axis_extract_ok; try assumption. }
  set (r := mkK _ _ _).
  assert (Forall (axis_ok (klen r)) (axes r)) as Hr.
  { cbn. apply Forall_forall. intros z Hz. apply in_map_iff in Hz as (x & <- & Hin). apply Hax. exact Hin. }
  split; [reflexivity|]. split; [split; [cbn; lra|exact Hr]|].
  intros t Ht.
  assert (forall x, In x (axes p) -> x_ (state_at r t (y x)) = x_ (state_at p (a + t) x) /\
            v_ (state_at r t (y x)) = v_ (state_at p (a + t) x) /\
            (0 < t < b - a -> ac_ (state_at r t (y x)) = ac_ (state_at p (a + t) x))) as Hs.
  { intros x Hin. pose proof (Hax x Hin) as (O & S1 & S2 & S3 & S4 & S5).
    rewrite Forall_forall in Hx. destruct (state_at_ok p (a + t) x (Hx x Hin)) as [E1 E2]; [lra|].
    rewrite E1, E2. unfold state_at at 1 2 3. cbn [klen r].
    destruct (reqb_spec t 0) as [->|]; cbn [orb].
    { rewrite Rplus_0_r. split; [exact S1|]. split; [exact S2|]. intros; exfalso; lra. }
    destruct (reqb_spec (b - a) 0); cbn [orb]; [exfalso; lra|].
    destruct (reqb_spec t (b - a)) as [->|].
    { replace (a + (b - a)) with b by ring. split; [exact S3|]. split; [exact S4|]. intros; exfalso; lra. }
    rewrite S5 by lra. split; [reflexivity|]. split; [reflexivity|]. intros Ht'.
    unfold state_at. destruct (reqb_spec (a + t) 0); [exfalso; lra|]. destruct (reqb_spec (klen p) 0); [exfalso; lra|].
    cbn [orb]. destruct (reqb_spec (a + t) (klen p)); [exfalso; lra|]. reflexivity. }
  unfold same_motion. rewrite !trans_compute. cbn [axes r]. rewrite !map_map.
  split; [split; [|split]|].
  - apply map_ext_in. intros x Hin. apply Hs. exact Hin.
  - apply map_ext_in. intros x Hin. apply Hs. exact Hin.
  - rewrite !rest_compute by (cbn; lra). cbn [klen others r]. rewrite map_map. apply map_ext. intros [u v]. unfold lin. cbn. field. lra.
  - intros Ht'. apply map_ext_in. intros x Hin. apply Hs; assumption.
Qed.

Lemma extract_ok p a b : path_ok p -> 0 <= a -> a <= b -> b <= klen p ->
  out_len p (kextract p a b) = b - a /\
  (forall r, kextract p a b = New r -> path_ok r) /\
  forall t, 0 <= t <= b - a ->
    exists q, out_at p (kextract p a b) t = Ok q /\ same_motion q (kcompute p (a + t)) /\
      (0 < t < b - a -> map ac_ (trans q) = map ac_ (trans (kcompute p (a + t)))).
Proof.
  intros Hp Ha Hab Hb. unfold kextract.
  destruct (reqb a 0 && reqb b (klen p)) eqn:E.
  { apply Bool.andb_true_iff in E as [E1 E2]. destruct (reqb_spec a 0) as [->|]; [|discriminate].
    destruct (reqb_spec b (klen p)) as [->|]; [|discriminate].
    cbn. split; [lra|]. split; [discriminate|]. intros t Ht. exists (kcompute p t).
    rewrite Rplus_0_l. split; [reflexivity|]. split; [|reflexivity]. repeat split. }
  destruct (rleb_spec (Rabs (b - a)) 0) as [H0|H0].
  { rewrite Rabs_right in H0 by lra. assert (b = a) as -> by lra. cbn. split; [lra|]. split; [discriminate|]. intros t Ht.
    eexists; split; [reflexivity|]. assert (t = 0) as -> by lra. rewrite Rplus_0_r. split; [repeat split|]. intros; exfalso; lra. }
  rewrite Rabs_right in H0 by lra.
  destruct (rltb_spec b a); [exfalso; lra|]. fold (new_path p a b).
  destruct (new_path_ok p a b Hp Ha ltac:(lra) Hb) as (N1 & N2 & N3).
  split; [exact N1|]. split. { intros r Hr. injection Hr as <-. exact N2. }
  intros t Ht. eexists. split; [reflexivity|]. apply N3. exact Ht.
Qed.
