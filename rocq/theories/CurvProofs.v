(* Constant curvature paths: rolling, derivatives, extraction, reversal. *)
From Coq Require Import Reals ZArith List Bool Lia Lra.
From Verif Require Import Base XReal PolySpec PolyProofs CurvModel CurvSpec.
Import ListNotations.
Open Scope R_scope.

Lemma dpl_ext f g x l : (forall t, f t = g t) -> derivable_pt_lim f x l -> derivable_pt_lim g x l.
Proof.
  intros E H eps He. destruct (H eps He) as [d Hd]. exists d. intros h Hh Hl.
  rewrite <- !E. exact (Hd h Hh Hl).
Qed.
Lemma dpl_eq f x l l' : l = l' -> derivable_pt_lim f x l -> derivable_pt_lim f x l'.
Proof. intros ->; auto. Qed.

Lemma d_lin a b x : derivable_pt_lim (fun t => a * t + b) x a.
Proof.
  apply dpl_eq with (a * 1 + 0); [ring|].
  apply (derivable_pt_lim_plus (fun t => a * t) (fun _ => b)).
  - apply (derivable_pt_lim_scal id a). apply derivable_pt_lim_id.
  - apply derivable_pt_lim_const.
Qed.
Lemma d_cos a b x : derivable_pt_lim (fun t => cos (a * t + b)) x (- a * sin (a * x + b)).
Proof.
  apply dpl_eq with (- sin (a * x + b) * a); [ring|].
  apply (derivable_pt_lim_comp (fun t => a * t + b) cos).
  - apply d_lin.
  - apply derivable_pt_lim_cos.
Qed.
Lemma d_sin a b x : derivable_pt_lim (fun t => sin (a * t + b)) x (a * cos (a * x + b)).
Proof.
  apply dpl_eq with (cos (a * x + b) * a); [ring|].
  apply (derivable_pt_lim_comp (fun t => a * t + b) sin).
  - apply d_lin.
  - apply derivable_pt_lim_sin.
Qed.
(* A + B cos (w t + f) + D sin (w t + f) + E t *)
Lemma d_trig A B D E w f x :
  derivable_pt_lim (fun t => A + (B * cos (w * t + f) + D * sin (w * t + f)) + E * t) x
    (w * (- B * sin (w * x + f) + D * cos (w * x + f)) + E).
Proof.
  apply dpl_ext with (fun t => (B * cos (w * t + f) + D * sin (w * t + f)) + (E * t + A)).
  { intros t. ring. }
  apply (derivable_pt_lim_plus (fun t => B * cos (w * t + f) + D * sin (w * t + f)) (fun t => E * t + A)).
  2: apply d_lin.
  apply dpl_eq with (B * (- w * sin (w * x + f)) + D * (w * cos (w * x + f))); [ring|].
  apply (derivable_pt_lim_plus (fun t => B * cos (w * t + f)) (fun t => D * sin (w * t + f))).
  - apply (derivable_pt_lim_scal (fun t => cos (w * t + f))). apply d_cos.
  - apply (derivable_pt_lim_scal (fun t => sin (w * t + f))). apply d_sin.
Qed.

(* ---- wheels ---- *)
Lemma set_all_ext ws : forall f g, (forall k, f k = g k) -> forall k, set_all ws f k = set_all ws g k.
Proof.
  induction ws as [|[a v] ws IH]; intros f g H k; cbn [set_all]; [apply H|].
  apply IH. intros j. unfold upd. destruct (j =? a)%nat; [reflexivity | apply H].
Qed.
Lemma set_all_out ws : forall f k, ~ In k (map fst ws) -> set_all ws f k = f k.
Proof.
  induction ws as [|[a v] ws IH]; intros f k H; cbn [set_all map fst In] in *; [reflexivity|].
  rewrite IH by tauto. apply upd_neq. intros ->. tauto.
Qed.
(* Either k is not in the list, or the value does not depend on f. *)
Lemma set_all_in ws : forall k, In k (map fst ws) -> exists v, forall f, set_all ws f k = v.
Proof.
  induction ws as [|[a v] ws IH]; intros k H; cbn [set_all map fst In] in *; [contradiction|].
  destruct (in_dec Nat.eq_dec k (map fst ws)) as [Hi|Hn].
  - destruct (IH k Hi) as [w Hw]. exists w. intros f. apply Hw.
  - destruct H as [<-|H]; [|contradiction]. exists v. intros f.
    rewrite set_all_out by exact Hn. apply upd_eq.
Qed.
Lemma set_all_zero ws f k : In k (map fst ws) -> set_all (map (fun w : nat * R => (fst w, 0)) ws) f k = 0.
Proof.
  revert f. induction ws as [|[a v] ws IH]; intros f H; cbn [set_all map fst In] in *; [contradiction|].
  destruct (in_dec Nat.eq_dec k (map fst ws)) as [Hi|Hn]; [apply IH; exact Hi|].
  destruct H as [<-|H]; [|contradiction].
  rewrite set_all_out; [apply upd_eq|].
  rewrite map_map. exact Hn.
Qed.
Lemma set_all_zero_out ws f k : ~ In k (map fst ws) -> set_all (map (fun w : nat * R => (fst w, 0)) ws) f k = f k.
Proof. intros H. apply set_all_out. rewrite map_map. exact H. Qed.
Lemma set_all_single ws : forall f k v, NoDup (map fst ws) -> In (k, v) ws -> set_all ws f k = v.
Proof.
  induction ws as [|[a w] ws IH]; intros f k v Hn H; cbn [set_all map fst In] in *; [contradiction|].
  apply NoDup_cons_iff in Hn. destruct Hn as [Hn1 Hn2]. destruct H as [H|H].
  - injection H as -> ->. rewrite set_all_out by exact Hn1. apply upd_eq.
  - apply IH; assumption.
Qed.

Definition wheel_ranks (p : cpath) : list nat := map fst (p_wheels p).

(* ---- the path ---- *)
Section Path.
Variable p : cpath.
Hypothesis HL : p_t0 p < p_t1 p.
Let L := param_length p.
Let be := p_cl p / L.
Let w := p_kappa p * be.
Let f := - (w * p_t0 p).
Let c0 := cc (p_init p).
Let s0 := cs (p_init p).

Lemma L_pos : 0 < L. Proof. unfold L, param_length. lra. Qed.
Lemma L_test : reqb (param_length p) 0 = false.
Proof. destruct (reqb_spec (param_length p) 0) as [E|]; [|reflexivity]. pose proof L_pos. unfold L in *. lra. Qed.
Lemma abs_lin t : abscissa p t = (t - p_t0 p) / L.
Proof. unfold abscissa. rewrite L_test. reflexivity. Qed.
Lemma arc_lin t : abscissa p t * p_cl p = be * t + - (be * p_t0 p).
Proof. rewrite abs_lin. unfold be. pose proof L_pos. field. lra. Qed.
Lemma angle_lin t : p_kappa p * (abscissa p t * p_cl p) = w * t + f.
Proof. rewrite arc_lin. unfold f, w. ring. Qed.

Definition hC (t : R) := c0 * cos (w * t + f) - s0 * sin (w * t + f).
Definition hS (t : R) := c0 * sin (w * t + f) + s0 * cos (w * t + f).
Lemma compute_cc t : cc (cc_compute p t) = hC t.
Proof. unfold cc_compute, hC. cbn [cc]. rewrite angle_lin. reflexivity. Qed.
Lemma compute_cs t : cs (cc_compute p t) = hS t.
Proof. unfold cc_compute, hS. cbn [cs]. rewrite angle_lin. reflexivity. Qed.
Lemma d_hC t : derivable_pt_lim hC t (- w * hS t).
Proof.
  apply dpl_ext with (fun t => 0 + (c0 * cos (w * t + f) + (- s0) * sin (w * t + f)) + 0 * t).
  { intros u. unfold hC. ring. }
  eapply dpl_eq; [|apply d_trig]. unfold hS. ring.
Qed.
Lemma d_hS t : derivable_pt_lim hS t (w * hC t).
Proof.
  apply dpl_ext with (fun t => 0 + (s0 * cos (w * t + f) + c0 * sin (w * t + f)) + 0 * t).
  { intros u. unfold hS. ring. }
  eapply dpl_eq; [|apply d_trig]. unfold hC. ring.
Qed.
Lemma d_cx t : derivable_pt_lim (fun u => cx (cc_compute p u)) t (be * hC t).
Proof.
  destruct (Req_EM_T (p_kappa p) 0) as [Hk|Hk].
  - apply dpl_ext with (fun u => be * c0 * u + (cx (p_init p) - be * p_t0 p * c0)).
    { intros u. unfold cc_compute. cbn [cx]. destruct (reqb_spec (p_kappa p) 0) as [_|N]; [|contradiction].
      cbn [fst]. rewrite arc_lin. fold c0. ring. }
    eapply dpl_eq; [|apply d_lin]. unfold hC, f, w. rewrite Hk.
    replace (0 * be * t + - (0 * be * p_t0 p)) with 0 by ring. rewrite cos_0, sin_0. ring.
  - set (r := 1 / p_kappa p).
    apply dpl_ext with (fun u => (cx (p_init p) - r * s0) + (r * s0 * cos (w * u + f) + r * c0 * sin (w * u + f)) + 0 * u).
    { intros u. unfold cc_compute. cbn [cx]. destruct (reqb_spec (p_kappa p) 0) as [N|_]; [contradiction|].
      cbn [fst]. rewrite angle_lin. fold c0 s0. fold r. ring. }
    eapply dpl_eq; [|apply d_trig]. unfold hC, r.
    replace be with (1 / p_kappa p * w) by (unfold w; field; exact Hk). ring.
Qed.
Lemma d_cy t : derivable_pt_lim (fun u => cy (cc_compute p u)) t (be * hS t).
Proof.
  destruct (Req_EM_T (p_kappa p) 0) as [Hk|Hk].
  - apply dpl_ext with (fun u => be * s0 * u + (cy (p_init p) - be * p_t0 p * s0)).
    { intros u. unfold cc_compute. cbn [cy]. destruct (reqb_spec (p_kappa p) 0) as [_|N]; [|contradiction].
      cbn [snd]. rewrite arc_lin. fold s0. ring. }
    eapply dpl_eq; [|apply d_lin]. unfold hS, f, w. rewrite Hk.
    replace (0 * be * t + - (0 * be * p_t0 p)) with 0 by ring. rewrite cos_0, sin_0. ring.
  - set (r := 1 / p_kappa p).
    apply dpl_ext with (fun u => (cy (p_init p) + r * c0) + (- (r * c0) * cos (w * u + f) + r * s0 * sin (w * u + f)) + 0 * u).
    { intros u. unfold cc_compute. cbn [cy]. destruct (reqb_spec (p_kappa p) 0) as [N|_]; [contradiction|].
      cbn [snd]. rewrite angle_lin. fold c0 s0. fold r. ring. }
    eapply dpl_eq; [|apply d_trig]. unfold hS, r.
    replace be with (1 / p_kappa p * w) by (unfold w; field; exact Hk). ring.
Qed.
Lemma d_cj t k : derivable_pt_lim (fun u => cj (cc_compute p u) k) t
  (set_all (map (fun w : nat * R => (fst w, 0)) (p_wheels p))
     (fun i => (cj (p_end p) i - cj (p_init p) i) / L) k).
Proof.
  destruct (in_dec Nat.eq_dec k (map fst (p_wheels p))) as [Hi|Hn].
  - rewrite set_all_zero by exact Hi. destruct (set_all_in _ _ Hi) as [v Hv].
    apply dpl_ext with (fun _ => v); [|apply derivable_pt_lim_const].
    intros u. unfold cc_compute. cbn [cj]. symmetry. apply Hv.
  - rewrite set_all_zero_out by exact Hn.
    set (D := cj (p_end p) k - cj (p_init p) k).
    apply dpl_ext with (fun u => D / L * u + (cj (p_init p) k - D / L * p_t0 p)); [|apply d_lin].
    intros u. unfold cc_compute. cbn [cj]. rewrite set_all_out by exact Hn. rewrite abs_lin.
    fold D. pose proof L_pos. field. lra.
Qed.

Lemma heading_unit t : unit_heading (p_init p) -> unit_heading (cc_compute p t).
Proof.
  unfold unit_heading. rewrite compute_cc, compute_cs. unfold hC, hS. fold c0 s0. intros H.
  pose proof (sin2_cos2 (w * t + f)) as E. unfold Rsqr in E.
  transitivity ((c0 * c0 + s0 * s0) * (sin (w * t + f) * sin (w * t + f) + cos (w * t + f) * cos (w * t + f))); [ring|].
  rewrite E, H. ring.
Qed.

(* the velocity of the path, in the frame of the robot *)
Definition true_velocity : vel :=
  {| vx := be; vy := 0; vth := w;
     vj := set_all (map (fun w : nat * R => (fst w, 0)) (p_wheels p))
             (fun i => (cj (p_end p) i - cj (p_init p) i) / L) |}.
Lemma true_velocity_ok t : is_velocity (cc_compute p) t true_velocity.
Proof.
  unfold is_velocity, true_velocity. cbn [vx vy vth vj]. rewrite compute_cc, compute_cs.
  repeat split.
  - eapply dpl_eq; [|apply d_cx]. ring.
  - eapply dpl_eq; [|apply d_cy]. ring.
  - apply dpl_ext with hC; [intros u; symmetry; apply compute_cc | apply d_hC].
  - apply dpl_ext with hS; [intros u; symmetry; apply compute_cs | apply d_hS].
  - intros k. apply d_cj.
Qed.
Lemma path_rolls : rolls be (p_kappa p) (cc_compute p).
Proof. intros t. exists true_velocity. split; [apply true_velocity_ok|]. cbn. unfold w. repeat split; ring. Qed.

(* ---- n-th derivatives of the position ---- *)
Fixpoint rotC (n : nat) (t : R) : R := match n with O => hC t | S m => - rotS m t end
with rotS (n : nat) (t : R) : R := match n with O => hS t | S m => rotC m t end.
Lemma d_rot n : (forall t, derivable_pt_lim (rotC n) t (w * rotC (S n) t)) /\
                (forall t, derivable_pt_lim (rotS n) t (w * rotS (S n) t)).
Proof.
  induction n as [|n [IHC IHS]]; split; intros t; cbn [rotC rotS].
  - eapply dpl_eq; [|apply d_hC]. ring.
  - apply d_hS.
  - eapply dpl_eq; [|apply derivable_pt_lim_opp; apply IHS]. cbn [rotC rotS]. ring.
  - apply (IHC t).
Qed.
Definition derX (k : nat) (t : R) : R :=
  match k with O => cx (cc_compute p t) | S n => be * w ^ n * rotC n t end.
Definition derY (k : nat) (t : R) : R :=
  match k with O => cy (cc_compute p t) | S n => be * w ^ n * rotS n t end.
Lemma derX_seq k t : derivable_pt_lim (derX k) t (derX (S k) t).
Proof.
  destruct k as [|n]; cbn [derX].
  - eapply dpl_eq; [|apply d_cx]. cbn [rotC pow]. ring.
  - eapply dpl_eq; [|apply (derivable_pt_lim_scal (rotC n)); apply (proj1 (d_rot n))]. cbn [pow]. ring.
Qed.
Lemma derY_seq k t : derivable_pt_lim (derY k) t (derY (S k) t).
Proof.
  destruct k as [|n]; cbn [derY].
  - eapply dpl_eq; [|apply d_cy]. cbn [rotS pow]. ring.
  - eapply dpl_eq; [|apply (derivable_pt_lim_scal (rotS n)); apply (proj2 (d_rot n))]. cbn [pow]. ring.
Qed.
Lemma rot4 n t : rotC (4 + n) t = rotC n t /\ rotS (4 + n) t = rotS n t.
Proof. cbn [rotC rotS Nat.add]. split; ring. Qed.
Lemma rot4k k n t : rotC (4 * k + n) t = rotC n t /\ rotS (4 * k + n) t = rotS n t.
Proof.
  induction k as [|k [IH1 IH2]]; [auto|].
  replace (4 * S k + n)%nat with (4 + (4 * k + n))%nat by lia.
  destruct (rot4 (4 * k + n) t) as [A B]. rewrite A, B. auto.
Qed.
End Path.
