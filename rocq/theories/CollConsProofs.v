From Coq Require Import Reals List Lra.
From Verif Require Import Base XReal CollConsModel CollConsSpec.
Import ListNotations.
Open Scope R_scope.

Lemma rltb_spec a b : rltb a b = true <-> a < b.
Proof. unfold rltb. destruct (Rlt_dec a b); split; intros; try assumption; try reflexivity; try discriminate; contradiction. Qed.

Lemma dot_nonneg a : 0 <= dot a a.
Proof. unfold dot. pose proof (Rle_0_sqr (px a)). pose proof (Rle_0_sqr (py a)). pose proof (Rle_0_sqr (pz a)).
  unfold Rsqr in *. lra. Qed.

Lemma normalized_pos a : 0 < dot a a -> normalized a = vscale (/ norm a) a.
Proof. intros H. unfold normalized. rewrite (proj2 (rltb_spec 0 (dot a a)) H). reflexivity. Qed.

Lemma dot_vscale k a b : dot (vscale k a) b = k * dot a b.
Proof. unfold dot, vscale, px, py, pz; cbn [fst snd]. ring. Qed.
Lemma dot_vadd_r a b c : dot a (vadd b c) = dot a b + dot a c.
Proof. unfold dot, vadd, px, py, pz; cbn [fst snd]. ring. Qed.
Lemma dot_vscale_r k a b : dot a (vscale k b) = k * dot a b.
Proof. unfold dot, vscale, px, py, pz; cbn [fst snd]. ring. Qed.
Lemma dot_zero_r a : dot a (0, 0, 0) = 0.
Proof. unfold dot, px, py, pz; cbn [fst snd]. ring. Qed.

Lemma prod_row u J : forall v, prod (row u J) v = dot u (mat_vec J v).
Proof.
  induction J as [|c J IH]; intros [|a v]; cbn [row map prod mat_vec]; try (symmetry; apply dot_zero_r).
  fold (row u J). rewrite IH, dot_vadd_r, dot_vscale_r. ring.
Qed.

Lemma prod_zero J : forall v, Forall (fun x => x = 0) v -> prod J v = 0.
Proof.
  induction J as [|a J IH]; intros v H; [reflexivity|]. destruct H; [reflexivity|].
  cbn [prod]. rewrite IH by assumption. subst. ring.
Qed.

(* derivative of the norm *)
Lemma norm_derivative g s d : v3_derivative g s d -> 0 < dot (g s) (g s) ->
  derivable_pt_lim (fun u => norm (g u)) s (dot (normalized (g s)) d).
Proof.
  intros (Hx & Hy & Hz) P. rewrite normalized_pos, dot_vscale by exact P.
  unfold norm at 1.
  assert (derivable_pt_lim (fun u => dot (g u) (g u)) s (2 * dot (g s) d)) as D.
  { unfold dot.
    replace (2 * (px (g s) * px d + py (g s) * py d + pz (g s) * pz d)) with
      (((px d * px (g s) + px (g s) * px d) + (py d * py (g s) + py (g s) * py d))
       + (pz d * pz (g s) + pz (g s) * pz d)) by ring.
    apply (derivable_pt_lim_plus (fun u => px (g u) * px (g u) + py (g u) * py (g u)) (fun u => pz (g u) * pz (g u))).
    - apply (derivable_pt_lim_plus (fun u => px (g u) * px (g u)) (fun u => py (g u) * py (g u))).
      + apply (derivable_pt_lim_mult (fun u => px (g u)) (fun u => px (g u))); assumption.
      + apply (derivable_pt_lim_mult (fun u => py (g u)) (fun u => py (g u))); assumption.
    - apply (derivable_pt_lim_mult (fun u => pz (g u)) (fun u => pz (g u))); assumption. }
  pose proof (derivable_pt_lim_comp (fun u => dot (g u) (g u)) sqrt s _ _ D (derivable_pt_lim_sqrt _ P)) as H.
  replace (/ norm (g s) * dot (g s) d) with (/ (2 * sqrt (dot (g s) (g s))) * (2 * dot (g s) d)); [exact H|].
  unfold norm. assert (0 < sqrt (dot (g s) (g s))) by (apply sqrt_lt_R0; exact P). field. lra.
Qed.

Lemma distance_norm a b : distance a b = norm (vsub a b).
Proof. reflexivity. Qed.

Lemma rot_inv_dot m a : rigid m -> dot (rot m a) (rot m a) = dot a a.
Proof.
  intros (_ & X & Y & Z & XY & YZ & XZ). destruct a as [[a b] c]. destruct m as [[[x1 x2] x3] [[y1 y2] y3] [[z1 z2] z3] [[p1 p2] p3]].
  unfold rot, dot, vadd, vscale, px, py, pz in *. cbn [fst snd t_x t_y t_z t_p] in *.
  transitivity (a*a*(x1*x1+x2*x2+x3*x3) + b*b*(y1*y1+y2*y2+y3*y3) + c*c*(z1*z1+z2*z2+z3*z3)
    + 2*a*b*(x1*y1+x2*y2+x3*y3) + 2*b*c*(y1*z1+y2*z2+y3*z3) + 2*a*c*(x1*z1+x2*z2+x3*z3)); [ring|].
  rewrite X, Y, Z, XY, YZ, XZ. ring.
Qed.
Lemma rot_sub m a b : rot m (vsub a b) = vsub (rot m a) (rot m b).
Proof. unfold rot, vsub, vadd, vscale, px, py, pz; cbn [fst snd]. f_equal; [f_equal|]; ring. Qed.
Lemma rot_inv_sub m a b : rot_inv m (vsub a b) = vsub (rot_inv m a) (rot_inv m b).
Proof. unfold rot_inv, dot, vsub, px, py, pz; cbn [fst snd]. f_equal; [f_equal|]; ring. Qed.
Lemma rot_inv_rot m a : rigid m -> rot_inv m (rot m a) = a.
Proof.
  intros (_ & X & Y & Z & XY & YZ & XZ). destruct a as [[a b] c]. destruct m as [[[x1 x2] x3] [[y1 y2] y3] [[z1 z2] z3] [[p1 p2] p3]].
  unfold rot_inv, rot, dot, vadd, vscale, px, py, pz in *. cbn [fst snd t_x t_y t_z t_p] in *.
  f_equal; [f_equal|].
  - transitivity (a*(x1*x1+x2*x2+x3*x3) + b*(x1*y1+x2*y2+x3*y3) + c*(x1*z1+x2*z2+x3*z3)); [ring|]. rewrite X, XY, XZ. ring.
  - transitivity (a*(x1*y1+x2*y2+x3*y3) + b*(y1*y1+y2*y2+y3*y3) + c*(y1*z1+y2*z2+y3*z3)); [ring|]. rewrite Y, XY, YZ. ring.
  - transitivity (a*(x1*z1+x2*z2+x3*z3) + b*(y1*z1+y2*z2+y3*z3) + c*(z1*z1+z2*z2+z3*z3)); [ring|]. rewrite Z, XZ, YZ. ring.
Qed.

Lemma vec_eq (a b : v3) : px a = px b -> py a = py b -> pz a = pz b -> a = b.
Proof. destruct a as [[a1 a2] a3], b as [[b1 b2] b3]. cbn. congruence. Qed.
Ltac vec := apply vec_eq; unfold act, act_inv, vsub, vadd, vscale, px, py, pz; cbn [fst snd]; try ring.

Lemma rot_inv_norm m a : rigid m -> dot (rot_inv m a) (rot_inv m a) = dot a a.
Proof.
  intros H. rewrite <- (rot_inv_dot m (rot_inv m a) H). destruct H as (H & _). rewrite H. reflexivity.
Qed.
Lemma same_rot m m' a : same_orientation m m' -> rot_inv m a = rot_inv m' a.
Proof. intros (X & Y & Z). unfold rot_inv. rewrite X, Y, Z. reflexivity. Qed.

(* act_inv m (act m' x) - y = R^T (m' x - m y) *)
Lemma relative_as_difference m m' x y : rigid m ->
  vsub (act_inv m (act m' x)) y = rot_inv m (vsub (act m' x) (act m y)).
Proof.
  intros H. unfold act_inv.
  replace y with (rot_inv m (rot m y)) at 1 by (apply rot_inv_rot, H).
  rewrite <- rot_inv_sub. f_equal. unfold act. vec.
Qed.
Lemma dot_neg a b : dot (vsub a b) (vsub a b) = dot (vsub b a) (vsub b a).
Proof. unfold dot, vsub, px, py, pz; cbn [fst snd]. ring. Qed.
Lemma normalized_neg a b d : dot (normalized (vsub a b)) d = - dot (normalized (vsub b a)) d.
Proof.
  unfold normalized, norm. rewrite (dot_neg a b). destruct (rltb 0 _); rewrite ?dot_vscale;
  unfold dot, vsub, px, py, pz; cbn [fst snd]; ring.
Qed.
