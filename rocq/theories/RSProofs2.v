(* Reeds and Shepp: symmetries, the candidates lead to the goal. *)
From Coq Require Import Reals ZArith List Bool Lia Lra.
From Verif Require Import Base XReal PolyProofs CurvModel CurvSpec CurvProofs3 AngleProofs DubinsModel DubinsSpec
  DubinsProofs DubinsProofs2 DubinsProofs3 RSModel RSProofs.
Import ListNotations.
Open Scope R_scope.

(* ---- symmetries of words ---- *)
Definition mirror (s : seg) : seg := match s with L_SEG => R_SEG | S_SEG => S_SEG | R_SEG => L_SEG end.

Lemma word_timeflip ss : forall ls a,
  wx ss (opp ls) (- a) = - wx ss ls a /\ wy ss (opp ls) (- a) = wy ss ls a /\ wa ss (opp ls) (- a) = - wa ss ls a.
Proof.
  induction ss as [|s ss IH]; intros [|l ls] a; cbn [wx wy wa opp map]; try (repeat split; ring).
  assert (T : turn s (- a) (- l) = - turn s a l) by (destruct s; cbn [turn]; ring).
  assert (X : dispx s (- a) (- l) = - dispx s a l).
  { destruct s; cbn [dispx]; [replace (- a + - l) with (- (a + l)) by ring | | replace (- a - - l) with (- (a - l)) by ring];
      rewrite ?sin_neg, ?cos_neg; ring. }
  assert (Y : dispy s (- a) (- l) = dispy s a l).
  { destruct s; cbn [dispy]; [replace (- a + - l) with (- (a + l)) by ring | | replace (- a - - l) with (- (a - l)) by ring];
      rewrite ?sin_neg, ?cos_neg; ring. }
  rewrite T, X, Y. destruct (IH ls (turn s a l)) as [E1 [E2 E3]]. unfold opp in *. rewrite E1, E2, E3. repeat split; ring.
Qed.
Lemma word_reflect ss : forall ls a,
  wx (map mirror ss) ls (- a) = wx ss ls a /\ wy (map mirror ss) ls (- a) = - wy ss ls a /\
  wa (map mirror ss) ls (- a) = - wa ss ls a.
Proof.
  induction ss as [|s ss IH]; intros [|l ls] a; cbn [wx wy wa map]; try (repeat split; ring).
  assert (T : turn (mirror s) (- a) l = - turn s a l) by (destruct s; cbn [turn mirror]; ring).
  assert (X : dispx (mirror s) (- a) l = dispx s a l).
  { destruct s; cbn [dispx mirror]; [replace (- a - l) with (- (a + l)) by ring | | replace (- a + l) with (- (a - l)) by ring];
      rewrite ?sin_neg, ?cos_neg; ring. }
  assert (Y : dispy (mirror s) (- a) l = - dispy s a l).
  { destruct s; cbn [dispy mirror]; [replace (- a - l) with (- (a + l)) by ring | | replace (- a + l) with (- (a - l)) by ring];
      rewrite ?sin_neg, ?cos_neg; ring. }
  rewrite T, X, Y. destruct (IH ls (turn s a l)) as [E1 [E2 E3]]. rewrite E1, E2, E3. repeat split; ring.
Qed.
Lemma word_app ss ss' : forall ls ls' a, length ls = length ss ->
  wx (ss ++ ss') (ls ++ ls') a = wx ss ls a + wx ss' ls' (wa ss ls a) /\
  wy (ss ++ ss') (ls ++ ls') a = wy ss ls a + wy ss' ls' (wa ss ls a) /\
  wa (ss ++ ss') (ls ++ ls') a = wa ss' ls' (wa ss ls a).
Proof.
  induction ss as [|s ss IH]; intros [|l ls] ls' a Hl; try discriminate; cbn [app wx wy wa]; [repeat split; ring|].
  destruct (IH ls ls' (turn s a l) (eq_add_S _ _ Hl)) as [E1 [E2 E3]]. rewrite E1, E2, E3. repeat split; ring.
Qed.
Lemma word_at ss ls th :
  wx ss ls th = cos th * wx ss ls 0 - sin th * wy ss ls 0 /\
  wy ss ls th = sin th * wx ss ls 0 + cos th * wy ss ls 0 /\ wa ss ls th = wa ss ls 0 + th.
Proof. pose proof (word_rot ss ls 0 th) as H. rewrite Rplus_0_l in H. exact H. Qed.

(* a single segment is symmetric with respect to the bisector of its ends *)
Lemma seg_sym s l : let al := turn s 0 l in
  cos al * dispx s 0 l + sin al * dispy s 0 l = dispx s 0 l /\
  sin al * dispx s 0 l - cos al * dispy s 0 l = dispy s 0 l.
Proof.
  destruct s; cbn [turn dispx dispy]; rewrite ?Rplus_0_l, ?Rminus_0_l, ?sin_0, ?cos_0, ?sin_neg, ?cos_neg.
  - pose proof (trig1 l). split; nra.
  - split; ring.
  - pose proof (trig1 l). split; nra.
Qed.
Lemma word_backward ss : forall ls, length ls = length ss ->
  let X := wx ss ls 0 in let Y := wy ss ls 0 in let A := wa ss ls 0 in
  wx (rev ss) (rev ls) 0 = X * cos A + Y * sin A /\ wy (rev ss) (rev ls) 0 = X * sin A - Y * cos A /\
  wa (rev ss) (rev ls) 0 = A.
Proof.
  induction ss as [|s ss IH]; intros [|l ls] Hl; try discriminate.
  - cbn. repeat split; ring.
  - apply eq_add_S in Hl. cbn [rev]. destruct (word_app (rev ss) [s] (rev ls) [l] 0) as [E1 [E2 E3]].
    { rewrite !rev_length. exact Hl. }
    rewrite E1, E2, E3. destruct (IH ls Hl) as [F1 [F2 F3]]. rewrite F1, F2, F3. clear E1 E2 E3 F1 F2 F3.
    cbn [wx wy wa]. set (al := turn s 0 l).
    destruct (word_at ss ls al) as [G1 [G2 G3]]. rewrite G1, G2, G3.
    set (X := wx ss ls 0). set (Y := wy ss ls 0). set (A := wa ss ls 0).
    assert (D : dispx s A l = cos A * dispx s 0 l - sin A * dispy s 0 l /\
                dispy s A l = sin A * dispx s 0 l + cos A * dispy s 0 l).
    { pose proof (disp_rot s 0 l A) as H. rewrite Rplus_0_l in H. exact H. }
    assert (T : turn s A l = al + A) by (pose proof (turn_rot s 0 l A) as H; rewrite Rplus_0_l in H; exact H).
    destruct D as [-> ->]. rewrite T. destruct (seg_sym s l) as [S1 S2]. fold al in S1, S2.
    set (dx := dispx s 0 l) in *. set (dy := dispy s 0 l) in *.
    rewrite (cos_plus A al), (sin_plus A al).
    pose proof (trig1 al) as T1.
    split; [|split]; [| |ring].
    + transitivity (X * cos A * (sin al * sin al + cos al * cos al) + Y * sin A * (sin al * sin al + cos al * cos al) +
        cos A * (cos al * dx + sin al * dy) - sin A * (sin al * dx - cos al * dy)); [rewrite T1, S1, S2; ring | ring].
    + transitivity (X * sin A * (sin al * sin al + cos al * cos al) - Y * cos A * (sin al * sin al + cos al * cos al) +
        sin A * (cos al * dx + sin al * dy) + cos A * (sin al * dx - cos al * dy)); [rewrite T1, S1, S2; ring | ring].
Qed.

Lemma word_pad ss : forall ls z a, length ls = length ss ->
  wx ss (ls ++ z) a = wx ss ls a /\ wy ss (ls ++ z) a = wy ss ls a /\ wa ss (ls ++ z) a = wa ss ls a.
Proof.
  induction ss as [|s ss IH]; intros [|l ls] z a Hl; try discriminate; cbn [app wx wy wa]; [destruct z; repeat split|].
  destruct (IH ls z (turn s a l) (eq_add_S _ _ Hl)) as [E1 [E2 E3]]. rewrite E1, E2, E3. repeat split.
Qed.

(* ---- the same for the end point ---- *)
Lemma ends_timeflip ss ls x y phi : ends ss ls (- x) y (- phi) -> ends ss (opp ls) x y phi.
Proof.
  intros [X [Y A]]. destruct (word_timeflip ss ls 0) as [E1 [E2 E3]]. rewrite Ropp_0 in E1, E2, E3.
  split; [rewrite E1, X; ring|]. split; [rewrite E2, Y; reflexivity|]. rewrite E3. rewrite <- (Ropp_involutive phi). apply eqm_opp, A.
Qed.
Lemma ends_reflect ss ls x y phi : ends ss ls x (- y) (- phi) -> ends (map mirror ss) ls x y phi.
Proof.
  intros [X [Y A]]. destruct (word_reflect ss ls 0) as [E1 [E2 E3]]. rewrite Ropp_0 in E1, E2, E3.
  split; [rewrite E1, X; ring|]. split; [rewrite E2, Y; ring|]. rewrite E3. rewrite <- (Ropp_involutive phi). apply eqm_opp, A.
Qed.
Lemma ends_backward ss ls x y phi : length ls = length ss -> ends ss ls x y phi ->
  ends (rev ss) (rev ls) (xb x y (cos phi) (sin phi)) (yb x y (cos phi) (sin phi)) phi.
Proof.
  intros Hl [X [Y A]]. destruct (word_backward ss ls Hl) as [E1 [E2 E3]].
  unfold xb, yb. rewrite <- (eqm_cos _ _ A), <- (eqm_sin _ _ A), <- X, <- Y.
  split; [exact E1|]. split; [exact E2|]. rewrite E3. exact A.
Qed.
Lemma ends_pad ss ls z x y phi : length ls = length ss -> ends ss ls x y phi -> ends ss (ls ++ z) x y phi.
Proof.
  intros Hl [X [Y A]]. destruct (word_pad ss ls z 0 Hl) as [E1 [E2 E3]]. unfold ends. rewrite E1, E2, E3.
  split; [exact X|]. split; [exact Y|exact A].
Qed.

(* ---- the four variants of a formula ---- *)
(* segments of a type: those before RS_NOP *)
Fixpoint segs (tys : list (option seg)) : list seg :=
  match tys with Some s :: tys' => s :: segs tys' | _ => [] end.

(* a change of position compatible with the symmetries *)
Definition compatible (gx gy : R -> R -> R -> R -> R) : Prop := forall x y c s,
  gx (- x) y c (- s) = - gx x y c s /\ gy (- x) y c (- s) = gy x y c s /\
  gx x (- y) c (- s) = gx x y c s /\ gy x (- y) c (- s) = - gy x y c s.
Lemma compatible_id : compatible (fun x _ _ _ => x) (fun _ y _ _ => y).
Proof. intros x y c s. repeat split. Qed.
Lemma compatible_b : compatible xb yb.
Proof. intros x y c s. unfold xb, yb. repeat split; ring. Qed.

Definition form (a b : nat) (ls : R -> R -> R -> list R) (cost : R -> R -> R -> R) (ty : nat) (l : list R) (L : R) : Prop :=
  (ty = a \/ ty = b) /\ exists t u v, (l = ls t u v \/ l = opp (ls t u v)) /\ L = cost t u v.

Lemma mk_some ty ls cost o ty' l L : mk ty ls cost o = Some (ty', l, L) ->
  exists t u v, o = Some (t, u, v) /\ ty' = ty /\ l = ls t u v /\ L = cost t u v.
Proof.
  unfold mk. destruct o as [[[t u] v]|]; [|discriminate]. intros E. injection E as <- <- <-.
  exists t, u, v. repeat split.
Qed.
Lemma four_ends f a b ls cost ss gx gy x y phi ty l L : compatible gx gy ->
  (forall x y phi t u v, f x y (cos phi) (sin phi) phi = Some (t, u, v) ->
     ends ss (ls t u v) (gx x y (cos phi) (sin phi)) (gy x y (cos phi) (sin phi)) phi) ->
  segs (rs_types a) = ss -> segs (rs_types b) = map mirror ss ->
  In (Some (ty, l, L)) (four f a b ls cost x y (cos phi) (sin phi) phi) ->
  ends (segs (rs_types ty)) l (gx x y (cos phi) (sin phi)) (gy x y (cos phi) (sin phi)) phi /\ form a b ls cost ty l L.
Proof.
  intros Hg Hf Ha Hb Hin. unfold four in Hin. cbn [In] in Hin.
  assert (Cn : cos phi = cos (- phi)) by (symmetry; apply cos_neg).
  assert (Sn : - sin phi = sin (- phi)) by (symmetry; apply sin_neg).
  destruct (Hg x y (cos phi) (sin phi)) as [G1 [G2 [G3 G4]]].
  destruct (Hg (- x) y (cos phi) (- sin phi)) as [_ [_ [G5 G6]]]. rewrite Ropp_involutive in G5, G6.
  destruct Hin as [E|[E|[E|[E|[]]]]]; apply mk_some in E; destruct E as [t [u [v [E [-> [-> ->]]]]]].
  - split; [rewrite Ha; apply Hf, E|]. split; [auto|]. exists t, u, v. auto.
  - split; [|split; [auto|]; exists t, u, v; auto]. rewrite Ha. apply ends_timeflip.
    rewrite <- G1, <- G2. rewrite Sn, Cn. apply Hf. rewrite <- Cn, <- Sn. exact E.
  - split; [|split; [auto|]; exists t, u, v; auto]. rewrite Hb. apply ends_reflect.
    rewrite <- G3, <- G4. rewrite Sn, Cn. apply Hf. rewrite <- Cn, <- Sn. exact E.
  - split; [|split; [auto|]; exists t, u, v; auto]. rewrite Hb. apply ends_reflect, ends_timeflip.
    replace (gy x y (cos phi) (sin phi)) with (gy (- x) y (cos phi) (- sin phi)) by exact G2.
    rewrite <- G1, <- G5, <- G6, Ropp_involutive. apply Hf, E.
Qed.
