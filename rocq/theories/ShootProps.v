(* C91: random configurations are within the bounds of the robot. *)
From Coq Require Import Reals List Bool Lra Lia.
From Verif Require Import Base XReal PolyProofs ShootModel ShootSpec.
Import ListNotations.
Open Scope R_scope.

Definition unit_draw (r : R) : Prop := 0 <= r <= 1.

Lemma mix lo hi r : lo <= hi -> unit_draw r -> lo <= lo + (hi - lo) * r <= hi.
Proof. intros H [H0 H1]. split; nra. Qed.

(* ---------------------------------------------------------------- Uniform *)
Lemma bounded_ok lo hi : lo <= hi -> xlt0 (xsub (Fin hi) (Fin lo)) || is_pinf (xsub (Fin hi) (Fin lo)) = false.
Proof. intros H. cbn. destruct (rltb_spec (hi + - lo) 0); [lra | reflexivity]. Qed.
Lemma unusable_throws b : unusable b -> xlt0 (xsub (snd b) (fst b)) || is_pinf (xsub (snd b) (fst b)) = true.
Proof.
  destruct b as [[lo| | |] [hi| | |]]; cbn; intros H; try contradiction; try reflexivity.
  destruct (rltb_spec (hi + - lo) 0); [reflexivity | lra].
Qed.
Lemma extra_ok b : forall rs, Forall bounded b -> Forall unit_draw rs -> (length b <= length rs)%nat ->
  exists q, shoot_extra b rs = Ok q /\ Forall2 inside b q.
Proof.
  induction b as [|x b IH]; intros rs B D L; [exists []; split; [reflexivity | constructor]|].
  destruct rs as [|r rs]; [cbn in L; lia|]. inversion B as [|? ? [lo [hi [-> H]]] Bs]; subst. inversion D as [|? ? Dr Ds]; subst.
  destruct (IH rs Bs Ds) as [q [E F]]; [cbn in L; lia|]. cbn [shoot_extra]. rewrite (bounded_ok lo hi H), E. cbn [bind].
  eexists. split; [reflexivity|]. constructor; [|exact F]. exists (lo + (hi - lo) * r). cbn [xsub xneg xadd xmul fst snd]. pose proof (mix lo hi r H Dr).
  split; [f_equal; lra | lra].
Qed.
Lemma extra_throws b : forall rs, Forall regular b -> (length b <= length rs)%nat -> Exists unusable b -> shoot_extra b rs = Throw.
Proof.
  induction b as [|x b IH]; intros rs Rg L E; [inversion E|]. destruct rs as [|r rs]; [cbn in L; lia|].
  inversion Rg as [|? ? Rx Rs]; subst. destruct x as [lower upper]. cbn [shoot_extra].
  destruct Rx as [[lo [hi [[= -> ->] H]]]|U].
  - rewrite (bounded_ok lo hi H). inversion E as [? ? U|? ? E']; subst; [cbn in U; lra|].
    rewrite (IH rs Rs); [reflexivity | cbn in L; lia | exact E'].
  - pose proof (unusable_throws _ U) as T. cbn [fst snd] in T. rewrite T. reflexivity.
Qed.

(* Provided the joints are drawn within their bounds, all the variables are;
   the vector given by the caller does not matter. *)
Theorem C91_uniform d p head rs config : p_sampleExtra p <> Some false ->
  Forall2 inside (flat_map snd (joints d)) head -> Forall bounded (extra d) ->
  Forall unit_draw rs -> (length (extra d) <= length rs)%nat ->
  exists q, uniform_shoot d (make_uniform p) (Ok head) rs config = Ok q /\ Forall2 inside (all_bounds d) q.
Proof.
  intros M H B D L. assert (Y : make_uniform p = true) by (unfold make_uniform; destruct (p_sampleExtra p) as [[|]|]; congruence). rewrite Y. destruct (extra_ok (extra d) rs B D L) as [q [E F]]. unfold uniform_shoot. cbn [bind]. rewrite E. cbn [bind].
  eexists. split; [reflexivity|]. apply Forall2_app; [exact H | exact F].
Qed.
(* An exception is thrown exactly when some extra variable has no uniform law,
   or when the joints cannot be drawn. *)
Theorem C91_uniform_throws d random rs config : Forall regular (extra d) -> random <> Fuel -> random <> UB -> Forall unit_draw rs -> (length (extra d) <= length rs)%nat ->
  uniform_shoot d true random rs config = Throw <-> random = Throw \/ Exists unusable (extra d).
Proof.
  intros Rg NF NU D L. unfold uniform_shoot. destruct random as [head| | |]; try congruence; cbn [bind]; [|tauto].
  split.
  - intros E. right. destruct (Exists_dec unusable (extra d)) as [Y|N].
    + intros [[lo| | |] [hi| | |]]; cbn; try (left; exact I); try (right; tauto); try (right; intros []). destruct (Rlt_dec hi lo); [left | right]; assumption.
    + exact Y.
    + assert (B : Forall bounded (extra d)).
      { apply Forall_forall. intros x Hx. rewrite Forall_forall in Rg. destruct (Rg x Hx) as [B|U]; [exact B|]. exfalso. apply N. apply Exists_exists. eauto. }
      destruct (extra_ok (extra d) rs B D L) as [q [Eq _]]. rewrite Eq in E. discriminate.
  - intros [F|E]; [discriminate|]. rewrite (extra_throws _ rs Rg L E). reflexivity.
Qed.
(* Both ends and every value between them can be drawn. *)
Theorem C91_uniform_reaches d head q : Forall bounded (extra d) -> Forall2 inside (extra d) q ->
  exists rs, Forall unit_draw rs /\ length rs = length (extra d) /\ uniform_shoot d true (Ok head) rs [] = Ok (head ++ q).
Proof.
  intros B F. assert (G : exists rs, Forall unit_draw rs /\ length rs = length (extra d) /\ shoot_extra (extra d) rs = Ok q).
  { induction F as [|x v b q Hx F IH]; [exists []; repeat split; constructor|].
    inversion B as [|? ? [lo [hi [-> H]]] Bs]; subst. destruct (IH Bs) as [rs [D [L E]]]. destruct Hx as [y [-> [H1 H2]]]. cbn [fst snd] in H1, H2.
    assert (K : exists r, unit_draw r /\ lo + (hi - lo) * r = y).
    { destruct (Req_dec lo hi) as [->|N]; [exists 0; unfold unit_draw; split; [lra|]; lra|].
      exists ((y - lo) / (hi - lo)). split; [|field; lra]. split; [apply Rle_mult_inv_pos; lra|]. apply (Rmult_le_reg_r (hi - lo)); [lra|].
      unfold Rdiv. rewrite Rmult_assoc, Rinv_l; lra. }
    destruct K as [r [Dr Er]]. exists (r :: rs). split; [constructor; assumption|]. split; [cbn; congruence|].
    cbn [shoot_extra]. rewrite (bounded_ok lo hi H), E. cbn [bind xsub xneg xadd xmul]. f_equal. f_equal. f_equal. lra. }
  destruct G as [rs [D [L E]]]. exists rs. split; [exact D|]. split; [exact L|]. unfold uniform_shoot. cbn [bind]. rewrite E. reflexivity.
Qed.
(* Without sampling the extra variables are zero, which may be out of their
   bounds. *)
Theorem C91_uniform_zero d p head rs config : p_sampleExtra p = Some false ->
  uniform_shoot d (make_uniform p) (Ok head) rs config = Ok (head ++ map (fun _ => Fin 0) (extra d)).
Proof.
  intros E. unfold make_uniform. rewrite E. unfold uniform_shoot. cbn [bind]. do 2 f_equal. induction (extra d); [reflexivity|]. cbn. f_equal. assumption.
Qed.
Definition timed : device := {| joints := []; extra := [(Fin 1, Fin 2)] |}.
Theorem C91_uniform_zero_refuted : Forall bounded (extra timed) /\
  forall rs config, exists q, uniform_shoot timed false (Ok []) rs config = Ok q /\ ~ Forall2 inside (all_bounds timed) q.
Proof.
  split; [repeat constructor; exists 1, 2; split; [reflexivity | lra]|]. intros rs config. eexists. split; [reflexivity|].
  intros F. inversion F as [|? ? ? ? [v [E [H _]]] _]; subst. injection E as <-. cbn in H. lra.
Qed.
(* Bounds that are twice the same infinity are accepted, and the result is not
   a number. *)
Definition lost : device := {| joints := []; extra := [(PInf, PInf)] |}.
Theorem C91_uniform_nan_refuted r config : uniform_shoot lost true (Ok []) [r] config = Ok [NaN].
Proof. reflexivity. Qed.

(* --------------------------------------------------------- UniformSeedable *)
Lemma draw_ok {G} (next : G -> R * G) b : (forall g, unit_draw (fst (next g))) -> forall g, Forall bounded b ->
  exists q, fst (draw_all next b g) = Ok q /\ Forall2 inside b q.
Proof.
  intros N. induction b as [|x b IH]; intros g B; [exists []; split; [reflexivity | constructor]|].
  inversion B as [|? ? [lo [hi [-> H]]] Bs]; subst. cbn [draw_all]. pose proof (N g) as Dr. destruct (next g) as [r g1]. cbn [fst] in Dr.
  destruct (IH g1 Bs) as [q [E F]]. destruct (draw_all next b g1) as [q' g2]. cbn [fst] in E. subst q'. cbn [distrib].
  destruct (rleb_spec lo hi); [|lra]. cbn [bind fst]. eexists. split; [reflexivity|]. constructor; [|exact F].
  exists (lo + (hi - lo) * r). split; [reflexivity|]. cbn [fst snd]. apply mix; assumption.
Qed.
Lemma draw_defined {G} (next : G -> R * G) b : forall g q, fst (draw_all next b g) = Ok q -> Forall bounded b.
Proof.
  induction b as [|x b IH]; intros g q E; [constructor|]. cbn [draw_all] in E. destruct (next g) as [r g1]. specialize (IH g1). destruct (draw_all next b g1) as [q' g2]. cbn [fst] in *.
  destruct x as [[lo| | |] [hi| | |]]; cbn [distrib] in E; try discriminate. destruct (rleb_spec lo hi) as [H|H]; [|discriminate].
  destruct q' as [q0| | |]; cbn [bind] in E; try discriminate. constructor; [exists lo, hi; split; [reflexivity | exact H] | exact (IH q0 eq_refl)].
Qed.
Lemma draw_no_throw {G} (next : G -> R * G) b : forall g, fst (draw_all next b g) <> Throw.
Proof.
  induction b as [|x b IH]; intros g; [discriminate|]. cbn [draw_all]. destruct (next g) as [r g1]. specialize (IH g1). destruct (draw_all next b g1) as [q' g2]. cbn [fst] in *.
  destruct x as [[lo| | |] [hi| | |]]; cbn [distrib]; try discriminate. destruct (rleb lo hi); [|discriminate]. destruct q'; cbn [bind]; congruence.
Qed.
Definition vector_space (d : device) : Prop := forall g b, In (g, b) (joints d) -> exists n, g = Vect n.
Lemma vector_spec d : forallb (fun j => is_vector (fst j)) (joints d) = true <-> vector_space d.
Proof.
  rewrite forallb_forall. split.
  - intros H g b I. specialize (H (g, b) I). destruct g; try discriminate. eauto.
  - intros H [g b] I. destruct (H g b I) as [n ->]. reflexivity.
Qed.
Theorem C91_seedable {G} (next : G -> R * G) d g config : (forall g, unit_draw (fst (next g))) ->
  (vector_space d -> Forall bounded (all_bounds d) ->
     exists q, fst (seedable_shoot next d g config) = Ok q /\ Forall2 inside (all_bounds d) q) /\
  (fst (seedable_shoot next d g config) = Throw <-> ~ vector_space d) /\
  (vector_space d -> ~ Forall bounded (all_bounds d) -> forall q, fst (seedable_shoot next d g config) <> Ok q).
Proof.
  intros N. unfold seedable_shoot. pose proof (vector_spec d) as V. destruct (forallb _ (joints d)) eqn:E; cbn [negb].
  - assert (VS : vector_space d) by (apply V; reflexivity). split; [intros _ B; apply draw_ok; assumption|]. split.
    + split; [intros T; exfalso; exact (draw_no_throw next _ g T) | intros C; contradiction].
    + intros _ NB q Eq. apply NB. exact (draw_defined next _ g q Eq).
  - assert (NV : ~ vector_space d) by (intros C; apply V in C; discriminate). split; [intros C; contradiction|]. split; [cbn; tauto|]. intros C; contradiction.
Qed.
Lemma iter_shift {A} (f : A -> A) n x : Nat.iter (S n) f x = Nat.iter n f (f x).
Proof. induction n as [|n IH]; [reflexivity|]. cbn [Nat.iter nat_rect] in *. rewrite IH. reflexivity. Qed.
(* The state of the generator after a configuration does not depend on the
   bounds: one number is drawn per variable. *)
Theorem C91_seedable_state {G} (next : G -> R * G) d g config : vector_space d ->
  snd (seedable_shoot next d g config) = Nat.iter (length (all_bounds d)) (fun g => snd (next g)) g.
Proof.
  intros V. unfold seedable_shoot. apply vector_spec in V. rewrite V. cbn [negb]. unfold all_bounds. generalize (flat_map snd (joints d) ++ extra d). intros b. clear.
  revert g. induction b as [|x b IH]; intros g; [reflexivity|]. cbn [draw_all length]. destruct (next g) as [r g1] eqn:E. specialize (IH g1). destruct (draw_all next b g1) as [q g2]. cbn [snd] in *. rewrite IH.
  rewrite iter_shift, E. reflexivity.
Qed.
(* sampleExtraDOF is ignored: with the parameter set to false the extra
   variables are still drawn. *)
Theorem C91_seedable_extra_refuted {G} (next : G -> R * G) g config : (forall g, unit_draw (fst (next g))) ->
  exists q, fst (seedable_shoot next timed g config) = Ok q /\ q <> map (fun _ => Fin 0) (extra timed).
Proof.
  intros N. assert (V : vector_space timed) by (intros ? ? []).
  destruct (C91_seedable next timed g config N) as [A _]. destruct A as [q [E F]]; [exact V | repeat constructor; exists 1, 2; split; [reflexivity | lra]|].
  exists q. split; [exact E|]. intros ->. inversion F as [|? ? ? ? [v [Ev [H _]]] _]; subst. injection Ev as <-. cbn in H. lra.
Qed.

(* ---------------------------------------------------------------- Gaussian *)
Lemma velocity_ok s : forall zs, Forall (fun x => 0 <= x) s -> (length s <= length zs)%nat ->
  exists v, draw_velocity s zs = Ok v /\ Forall2 (fun x y => exists z, In z zs /\ y = x * z) s v.
Proof.
  induction s as [|x s IH]; intros zs P L; [exists []; split; [reflexivity | constructor]|]. destruct zs as [|z zs]; [cbn in L; lia|].
  inversion P; subst. destruct (IH zs) as [v [E F]]; [assumption | cbn in L; lia|]. cbn [draw_velocity]. destruct (rltb_spec x 0); [lra|]. rewrite E.
  eexists. split; [reflexivity|]. constructor; [exists z; split; [left; reflexivity | reflexivity]|].
  clear -F. induction F as [|? ? ? ? [w [I ->]] F IH]; [constructor|]. constructor; [exists w; split; [right; exact I | reflexivity] | exact IH].
Qed.
Section Gauss.
Variable integrate : list xr -> list R -> list xr.
Variable saturate : list xr -> list xr.
Variable neutral : list xr.
Variable d : device.
(* Around a given center, with standard deviations that are not negative, the
   configuration is within the bounds, provided saturation brings any
   configuration within them. *)
Theorem C91_gaussian g zs config : (forall q, Forall2 inside (all_bounds d) (saturate q)) ->
  length (g_center g) = config_size d -> Forall (fun s => 0 <= s) (g_sigmas g) -> (length (g_sigmas g) <= length zs)%nat ->
  exists q, gaussian_shoot integrate saturate neutral d g zs config = Ok q /\ Forall2 inside (all_bounds d) q.
Proof.
  intros HS Hc Hs L. unfold gaussian_shoot. destruct (velocity_ok _ zs Hs L) as [v [-> _]]. cbn [bind]. rewrite Hc, Nat.ltb_irrefl. eexists. split; [reflexivity | apply HS].
Qed.
(* The center: with null standard deviations the configuration is the
   saturated center (integrate by a null velocity changes nothing). *)
Theorem C91_gaussian_center g zs config : (forall q n, integrate q (repeat 0 n) = q) ->
  length (g_center g) = config_size d -> Forall (fun s => s = 0) (g_sigmas g) -> (length (g_sigmas g) <= length zs)%nat ->
  gaussian_shoot integrate saturate neutral d g zs config = Ok (saturate (g_center g)).
Proof.
  intros HI Hc Hs L. unfold gaussian_shoot. assert (E : draw_velocity (g_sigmas g) zs = Ok (repeat 0 (length (g_sigmas g)))).
  { revert zs L. induction Hs as [|x s -> Hs IH]; intros zs L; [reflexivity|]. destruct zs as [|z zs]; [cbn in L; lia|]. cbn [draw_velocity]. destruct (rltb_spec 0 0); [lra|].
    rewrite IH by (cbn in L; lia). cbn [bind length repeat]. do 2 f_equal. ring. }
  rewrite E. cbn [bind]. rewrite Hc, Nat.ltb_irrefl, HI. reflexivity.
Qed.
(* With the default parameters the center is the empty vector and shooting is
   undefined, where the neutral configuration was meant. *)
Theorem C91_gaussian_default_refuted p current velocity memory zs config :
  p_center p = None -> (0 < config_size d)%nat ->
  let g := make_gaussian d p current velocity memory in
  Forall (fun s => 0 <= s) (g_sigmas g) -> (length (g_sigmas g) <= length zs)%nat ->
  gaussian_shoot integrate saturate neutral d g zs config = UB.
Proof.
  intros Hp Hd g Hs L'. unfold gaussian_shoot. destruct (velocity_ok _ zs Hs L') as [v [-> _]]. cbn [bind].
  assert (E : g_center g = []) by (unfold g, make_gaussian; rewrite Hp; destruct (p_useVel p) as [[|]|]; destruct (p_stdDev p); reflexivity).
  rewrite E. cbn [length]. destruct (Nat.ltb_spec 0 (config_size d)); [reflexivity | lia].
Qed.
End Gauss.
(* A velocity used as standard deviation may be negative: undefined. *)
Theorem C91_gaussian_velocity_refuted integrate saturate neutral d p current memory z zs config :
  p_useVel p = Some true -> let g := make_gaussian d p current [-1] memory in
  gaussian_shoot integrate saturate neutral d g (z :: zs) config = UB.
Proof.
  intros Hp g. unfold g, make_gaussian. rewrite Hp. unfold gaussian_shoot. cbn [set_sigmas g_sigmas draw_velocity]. destruct (rltb_spec (-1) 0); [reflexivity | lra].
Qed.

(* Default standard deviations: those documented, except in the plane. *)
Lemma nq_documented g b s : documented g b s -> length b = nq g.
Proof.
  induction 1; try rewrite app_length; cbn [nq length Nat.eqb] in *; lia.
Qed.
Lemma documented_vect n : forall b s, documented (Vect n) b s -> vect_sigmas b = s.
Proof.
  induction n as [|n IH]; intros b s D; inversion D; subst; [reflexivity| |].
  - cbn [vect_sigmas]. f_equal. apply IH. assumption.
  - cbn [vect_sigmas]. destruct x as [[lo| | |] [hi| | |]]; try (f_equal; apply IH; assumption). exfalso. match goal with H : forall a b, _ <> _ |- _ => exact (H _ _ eq_refl) end.
Qed.
Lemma firstn_all2' {A} n (l : list A) : length l = n -> firstn n l = l.
Proof. intros <-. apply firstn_all. Qed.
Lemma documented_so b s : documented (SOn 3) b s -> so_sigmas 3 = s.
Proof. intros D. inversion D; subst. unfold so_sigmas. cbn [nv Nat.eqb repeat]. replace (INR 3) with 3 by (cbn; lra). reflexivity. Qed.
Theorem C91_deviation_partial g b s : spatial g -> documented g b s -> group_sigmas g b = s.
Proof.
  intros Sp D. revert Sp. induction g as [n|n|n|g1 IH1 g2 IH2] in b, s, D |- *; intros Sp; cbn [spatial group_sigmas] in *.
  - rewrite (firstn_all2' n) by (apply nq_documented in D; exact D). exact (documented_vect n b s D).
  - subst n. exact (documented_so b s D).
  - subst n. inversion D as [| | | | |n b1 b2 s1 s2 D1 D2|]; subst. pose proof (nq_documented _ _ _ D1) as L1. cbn [nq] in L1.
    rewrite firstn_app, L1, Nat.sub_diag. rewrite firstn_O, app_nil_r, (firstn_all2' 3) by exact L1.
    rewrite (documented_vect _ _ _ D1), (documented_so _ _ D2). reflexivity.
  - inversion D as [| | | | | |? ? b1 b2 s1 s2 D1 D2]; subst. pose proof (nq_documented _ _ _ D1) as L1.
    rewrite firstn_app, skipn_app, L1, Nat.sub_diag. cbn [firstn skipn]. rewrite app_nil_r, (firstn_all2' (nq g1)) by exact L1.
    rewrite (skipn_all2 b1) by lia. cbn [app]. rewrite (IH1 _ _ D1), (IH2 _ _ D2); tauto.
Qed.
Theorem C91_deviation_refuted b : length b = 2%nat -> exists s, documented (SOn 2) b s /\ group_sigmas (SOn 2) b <> s.
Proof.
  intros L. exists [2 * PI]. split; [constructor; exact L|]. cbn [group_sigmas]. unfold so_sigmas. cbn [nv Nat.eqb repeat]. intros E. injection E as E.
  replace (1 + 1) with 2 in E by lra. assert (S1 : 1 < sqrt 2) by (rewrite <- sqrt_1 at 1; apply sqrt_lt_1; lra). pose proof PI_RGT_0.
  assert (F : 2 * PI / sqrt 2 * sqrt 2 = 2 * PI) by (field; lra). rewrite E in F. pose proof (Rmult_lt_0_compat (2 * PI) (sqrt 2 - 1) ltac:(lra) ltac:(lra)). lra.
Qed.
(* sigma (factor) sets every joint, whatever was there before ... *)
Theorem C91_sigma d f before : extra d = [] -> length before = number_dof d ->
  set_sigma d f before = map (fun s => s * f) (flat_map (fun j => group_sigmas (fst j) (snd j)) (joints d)).
Proof.
  intros E L. unfold set_sigma. rewrite skipn_all2; [rewrite app_nil_r; reflexivity|]. rewrite L. unfold number_dof. rewrite E. cbn. lia.
Qed.
(* ... but not the extra variables: their standard deviations depend on what
   the memory of the new vector holds. *)
Theorem C91_sigma_extra_refuted d x : extra d <> [] ->
  exists memory, length memory = number_dof d /\
    nth (length (flat_map (fun j => group_sigmas (fst j) (snd j)) (joints d))) (g_sigmas (gaussian_create d [] memory)) 0 = x.
Proof.
  intros E. exists (repeat (4 * x) (number_dof d)). split; [apply repeat_length|]. unfold gaussian_create, set_sigma. cbn [g_sigmas].
  rewrite map_app, app_nth2 by (rewrite map_length; lia). rewrite map_length, Nat.sub_diag. unfold number_dof. rewrite repeat_app, skipn_app, repeat_length, Nat.sub_diag.
  rewrite skipn_all2 by (rewrite repeat_length; lia). destruct (extra d) as [|e l]; [contradiction|]. cbn. field.
Qed.

(* ---------------------------------------------------------------- examples *)
Definition car : device := {| joints := [(Vect 1, [(Fin (-1), Fin 3)]); (Vect 2, [(Fin 0, Fin 1); (Fin 0, Fin 0)])]; extra := [(Fin (-2), Fin 2)] |}.
Example car_bounded : Forall bounded (all_bounds car) /\ vector_space car /\ config_size car = 4%nat.
Proof.
  split; [|split; [|reflexivity]].
  - repeat constructor; eexists _, _; (split; [reflexivity | lra]).
  - intros g b [[= <- <-]|[[= <- <-]|[]]]; eauto.
Qed.
Example car_shoot : exists q, uniform_shoot car true (Ok [Fin 0; Fin (/ 2); Fin 0]) [/ 2] [] = Ok q /\ Forall2 inside (all_bounds car) q.
Proof.
  destruct (C91_uniform car {| p_center := None; p_useVel := None; p_stdDev := None; p_sampleExtra := None |} [Fin 0; Fin (/ 2); Fin 0] [/ 2] []) as [q H].
  - discriminate.
  - cbn. repeat (constructor; [eexists; split; [reflexivity | cbn; lra]|]). constructor.
  - repeat constructor; eexists _, _; (split; [reflexivity | lra]).
  - repeat constructor; lra.
  - cbn; lia.
  - exists q. exact H.
Qed.
Example free_flyer : documented (SEn 3) (([(MInf, PInf); (Fin 0, Fin 2); (Fin 1, Fin 4)]) ++ repeat (Fin (-1), Fin 1) 4)
  ([1; 2 - 0; 4 - 1] ++ [2 * PI / sqrt 3; 2 * PI / sqrt 3; 2 * PI / sqrt 3]).
Proof. constructor; [|constructor; reflexivity]. apply doc_inf; [discriminate|]. repeat constructor. Qed.

Print Assumptions C91_uniform.
Print Assumptions C91_uniform_throws.
Print Assumptions C91_uniform_reaches.
Print Assumptions C91_uniform_zero.
Print Assumptions C91_uniform_zero_refuted.
Print Assumptions C91_uniform_nan_refuted.
Print Assumptions C91_seedable.
Print Assumptions C91_seedable_state.
Print Assumptions C91_seedable_extra_refuted.
Print Assumptions C91_gaussian.
Print Assumptions C91_gaussian_center.
Print Assumptions C91_gaussian_default_refuted.
Print Assumptions C91_gaussian_velocity_refuted.
Print Assumptions C91_deviation_partial.
Print Assumptions C91_deviation_refuted.
Print Assumptions C91_sigma.
Print Assumptions C91_sigma_extra_refuted.
