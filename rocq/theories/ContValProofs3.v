(* All the pairs together. *)
From Verif Require Import Base Ext IntervalsModel IntervalsProofs ContValModel ContValSpec ContValProofs ContValProofs2.
From Coq Require Import Lqa ZArith Qround.

Lemma swap0_in {A} (l : list A) k x : In x (swap0 l k) <-> In x l.
Proof.
  unfold swap0. destruct l as [|a r]; [reflexivity|].
  destruct (nth_error (a :: r) k) as [y|] eqn:E; [|reflexivity].
  destruct k as [|k]; [reflexivity|]. cbn [nth_error] in E.
  destruct (nth_error_split r k E) as [r1 [r2 [-> Hl]]].
  assert (E1 : firstn k (r1 ++ y :: r2) = r1).
  { rewrite <- Hl, firstn_app, Nat.sub_diag, firstn_all. cbn. apply app_nil_r. }
  assert (E2 : skipn (S k) (r1 ++ y :: r2) = r2).
  { rewrite <- Hl. clear. induction r1 as [|b r1 IH]; [reflexivity|exact IH]. }
  rewrite E1, E2. simpl. rewrite !in_app_iff. simpl. tauto.
Qed.

Section Lists.
Variables ta tb tol : Q.
Hypothesis Htr : (ta <= tb)%Q.
Hypothesis Htol : (0 <= tol)%Q.
Variable l0 : list pair.
Variable sep : pair -> nat -> Q -> Q.
Hypothesis F : forall p, In p l0 -> faithful ta tb p (sep p).
Hypothesis Hmode : (tol == 0)%Q \/ forall p, In p l0 -> p_straight p = true.
Notation inr := (in_range ta tb).

Definition allfree (v : Q) : Prop :=
  forall p i, In p l0 -> i < p_objs p -> (- (2 * tol) <= sep p i v)%Q.
Definition linv (L : list (pair * pstate)) : Prop :=
  (forall p, In p l0 <-> exists st, In (p, st) L) /\ forall p st, In (p, st) L -> pinv ta tb tol p (sep p) st.

Lemma linv_init : linv (init_pairs l0).
Proof.
  unfold init_pairs. split.
  - intros p. split.
    + intros H. exists pinit. apply in_map_iff. exists p; auto.
    + intros [st H]. apply in_map_iff in H as [q [E Hq]]. injection E as <- _. exact Hq.
  - intros p st H. apply in_map_iff in H as [q [E Hq]]. injection E as <- <-. apply pinit_inv.
Qed.

Section Wide.
Variable delta : Q.
(* width of an interval around t; delta is chosen later *)
Definition wid (t : Q) (iv : interval) : Prop :=
  (ele (fst iv) (Fin (t - delta)) \/ ele (fst iv) (Fin ta)) /\ (ele (Fin (t + delta)) (snd iv) \/ ele (Fin tb) (snd iv)).
Lemma wid_meet t a b : wid t a -> wid t b -> wid t (emax (fst a) (fst b), emin (snd a) (snd b)).
Proof.
  unfold wid, emax, emin. cbn [fst snd]. intros [A1 A2] [B1 B2]. split.
  - destruct (eleb (fst a) (fst b)); assumption.
  - destruct (eleb (snd a) (snd b)); assumption.
Qed.

(* W: whether the width is tracked *)
Lemma validate_intervals_sound : forall L t iv i small L' o,
  (forall p st, In (p, st) L -> In p l0 /\ pinv ta tb tol p (sep p) st) -> inr t ->
  ele (fst iv) (Fin t) -> ele (Fin t) (snd iv) ->
  validate_intervals ta tb tol L t iv i small = (L', o) ->
  map fst L' = map fst L /\ (forall p st, In (p, st) L' -> In p l0 /\ pinv ta tb tol p (sep p) st) /\
  forall iv' k, o = Some (iv', k) ->
    ele (fst iv) (fst iv') /\ ele (snd iv') (snd iv) /\
    ele (fst iv') (Fin t) /\ ele (Fin t) (snd iv') /\
    (forall p v j, In p (map fst L) -> inr v -> ele (fst iv') (Fin v) -> ele (Fin v) (snd iv') -> j < p_objs p ->
       (- (2 * tol) <= sep p j v)%Q) /\
    ((forall p st iv0 st' tmp, In p l0 -> wid t iv0 -> pair_validate ta tb tol p st t iv0 = (st', Some tmp) -> wid t tmp) ->
     wid t iv -> wid t iv').
Proof.
  induction L as [|[p st] r IH]; intros t iv i small L' o HL Ht Hi1 Hi2 E; cbn [validate_intervals] in E.
  - injection E as <- <-. split; [reflexivity|split; [exact HL|]]. intros iv' k Eo. injection Eo as <- <-.
    split; [apply ele_refl|split; [apply ele_refl|split; [exact Hi1|split; [exact Hi2|split; [intros p v j []|auto]]]]].
  - destruct (HL p st (or_introl eq_refl)) as [Hp HPi].
    assert (Hmp : (tol == 0)%Q \/ p_straight p = true) by (destruct Hmode as [H|H]; [left; exact H|right; exact (H p Hp)]).
    assert (HLr : forall p st, In (p, st) r -> In p l0 /\ pinv ta tb tol p (sep p) st) by (intros q s Hq; apply HL; right; exact Hq).
    destruct (pair_validate ta tb tol p st t iv) as [st' [tmp|]] eqn:EP.
    + destruct (pair_validate_sound ta tb tol Htr Htol p (sep p) (F p Hp) Hmp st t iv st' (Some tmp) HPi Ht Hi1 Hi2 EP) as [PI HS].
      destruct (HS tmp eq_refl) as [S1 [S2 S3]]. clear HS.
      set (iv2 := (emax (fst iv) (fst tmp), emin (snd iv) (snd tmp))) in *.
      assert (M1 : ele (fst iv) (fst iv2) /\ ele (fst tmp) (fst iv2) /\ ele (fst iv2) (Fin t)).
      { unfold iv2, emax; cbn [fst]. destruct (eleb (fst iv) (fst tmp)) eqn:EE; repeat split; try assumption; try apply ele_refl; ord. }
      assert (M2 : ele (snd iv2) (snd iv) /\ ele (snd iv2) (snd tmp) /\ ele (Fin t) (snd iv2)).
      { unfold iv2, emin; cbn [snd]. destruct (eleb (snd iv) (snd tmp)) eqn:EE; repeat split; try assumption; try apply ele_refl; ord. }
      destruct M1 as [M11 [M12 M13]]. destruct M2 as [M21 [M22 M23]].
      destruct (validate_intervals ta tb tol r t iv2 (i + 1) (if eltb (snd tmp) (snd iv) then i else small)) as [r' o'] eqn:EV.
      injection E as <- <-.
      destruct (IH _ _ _ _ _ _ HLr Ht M13 M23 EV) as [J1 [J2 J3]].
      split; [cbn [map fst]; rewrite J1; reflexivity|]. split.
      { intros q s [Hq|Hq]; [injection Hq as <- <-; auto|apply J2; exact Hq]. }
      intros iv' k Eo. destruct (J3 iv' k Eo) as [K1 [K2 [K3 [K4 [K5 K6]]]]].
      split; [ord|split; [ord|split; [exact K3|split; [exact K4|split]]]].
      * intros q v j [Hq|Hq] Hv V1 V2 Hj; [|apply (K5 q v j); auto]. cbn [fst] in Hq; subst q.
        apply S3; auto; ord.
      * intros HW Hw. apply K6; [exact HW|]. apply wid_meet; [exact Hw|]. exact (HW p st iv st' tmp Hp Hw EP).
    + destruct (pair_validate_sound ta tb tol Htr Htol p (sep p) (F p Hp) Hmp st t iv st' None HPi Ht Hi1 Hi2 EP) as [PI _].
      injection E as <- <-. split; [reflexivity|split; [|discriminate]].
      intros q s [Hq|Hq]; [injection Hq as <- <-; auto|apply HLr; exact Hq].
Qed.

Lemma linv_pairs L : linv L -> forall p st, In (p, st) L -> In p l0 /\ pinv ta tb tol p (sep p) st.
Proof. intros [H1 H2] p st H. split; [apply H1; exists st; exact H|exact (H2 p st H)]. Qed.
Lemma in_map_fst (L : list (pair * pstate)) p : In p (map fst L) <-> exists st, In (p, st) L.
Proof.
  rewrite in_map_iff. split.
  - intros [[q s] [E H]]. cbn in E; subst q. exists s; exact H.
  - intros [st H]. exists (p, st); auto.
Qed.
Lemma validate_configuration_sound L t L' o : linv L -> inr t ->
  validate_configuration ta tb tol L t = (L', o) ->
  linv L' /\
  forall x y, o = Some (x, y) ->
    ele x (Fin t) /\ ele (Fin t) y /\ (forall v, inr v -> ele x (Fin v) -> ele (Fin v) y -> allfree v) /\
    ((forall p st iv0 st' tmp, In p l0 -> wid t iv0 -> pair_validate ta tb tol p st t iv0 = (st', Some tmp) -> wid t tmp) ->
     wid t (x, y)).
Proof.
  Local Transparent ele.
  intros HL Ht E. unfold validate_configuration in E.
  destruct (validate_intervals ta tb tol L t (NInf, PInf) 0 0) as [L1 o1] eqn:EV.
  destruct (validate_intervals_sound L t (NInf, PInf) 0 0 L1 o1 (linv_pairs L HL) Ht I I EV) as [J1 [J2 J3]].
  assert (HL1 : linv L1).
  { split; [|intros p st H; apply J2; exact H]. intros p. rewrite <- in_map_fst, J1, in_map_fst. apply HL. }
  destruct o1 as [[iv k]|].
  - destruct (J3 iv k eq_refl) as [_ [_ [K3 [K4 [K5 K6]]]]]. injection E as <- <-. split.
    + destruct ((1 <? length L1) && negb (k =? 0)); [|exact HL1].
      destruct HL1 as [G1 G2]. split.
      * intros p. rewrite (G1 p). split; intros [st H]; exists st; apply swap0_in in H || apply swap0_in; exact H.
      * intros p st H. apply swap0_in in H. exact (G2 p st H).
    + intros x y Exy. injection Exy as ->. cbn [fst snd] in *. split; [exact K3|split; [exact K4|split]].
      * intros v Hv V1 V2 p i Hp Hi. apply (K5 p v i); auto. apply in_map_fst. apply HL; exact Hp.
      * intros HW. apply K6; [exact HW|]. split; left; exact I.
  - injection E as <- <-. split; [exact HL1|discriminate].
Qed.
End Wide.

(* instances of the loops *)
Section Inst.
Variable ev : Q -> bool.
Variable reverse : bool.
Notation vc := (validate_configuration ta tb tol).
Lemma vc_some s t s' x y : linv s -> in_range ta tb t -> ev t = true -> vc s t = (s', Some (x, y)) ->
  linv s' /\ ele x (Fin t) /\ ele (Fin t) y /\ forall v, in_range ta tb v -> ele x (Fin v) -> ele (Fin v) y -> allfree v.
Proof.
  intros HI Ht _ E. destruct (validate_configuration_sound 0 s t s' _ HI Ht E) as [H1 H2].
  destruct (H2 x y eq_refl) as [H3 [H4 [H5 _]]]. auto.
Qed.
Lemma vc_none s t s' : linv s -> in_range ta tb t -> ev t = true -> vc s t = (s', None) -> linv s'.
Proof. intros HI Ht _ E. apply (validate_configuration_sound 0 s t s' _ HI Ht E). Qed.

Theorem pairs_dichotomy fuel s' r :
  dichotomy _ ev vc reverse ta tb fuel (init_pairs l0) = (s', r) ->
  r = Fuel \/ (linv s' /\ exists v, r = Ok v /\ verdict _ ev vc reverse ta tb linv allfree v).
Proof. exact (dichotomy_sound _ ev vc reverse ta tb Htr linv allfree vc_some vc_none fuel _ s' r linv_init). Qed.
Theorem pairs_progressive fuel s' r :
  progressive _ ev vc reverse ta tb fuel (init_pairs l0) = (s', r) ->
  r = Fuel \/ (linv s' /\ exists v, r = Ok v /\ verdict _ ev vc reverse ta tb linv allfree v).
Proof. exact (progressive_sound _ ev vc reverse ta tb Htr linv allfree vc_some vc_none fuel _ s' r linv_init). Qed.

Variables m M : Q.
Hypothesis Hm : (0 < m)%Q.
Hypothesis HM : (0 < M)%Q.
Hypothesis Hclear : forall p t q, In p l0 -> in_range ta tb t -> dist_bound p t (p_objs p) = Some (Fin q) -> (m <= q + 2 * tol)%Q.
Hypothesis Hspeed : forall p x y, In p l0 -> (p_vel p x y <= M)%Q.
Lemma Hdelta : (0 < m / M)%Q.
Proof. apply Qlt_shift_div_l; [exact HM|]. lra. Qed.
Lemma vc_wide s t s' x y : linv s -> in_range ta tb t -> vc s t = (s', Some (x, y)) -> ev t = true ->
  (ele x (Fin (t - m / M)) \/ ele x (Fin ta)) /\ (ele (Fin (t + m / M)) y \/ ele (Fin tb) y).
Proof.
  intros HI Ht E _. destruct (validate_configuration_sound (m / M) s t s' _ HI Ht E) as [H1 H2].
  destruct (H2 x y eq_refl) as [_ [_ [_ H6]]]. apply H6.
  intros p st iv0 st' tmp Hp Hw EP.
  exact (pair_validate_wide ta tb tol p (sep p) (F p Hp) m M Hm HM
           (fun t q => Hclear p t q Hp) (fun x y => Hspeed p x y Hp) st t iv0 st' tmp Ht Hw EP).
Qed.
Theorem pairs_dichotomy_terminates :
  snd (dichotomy _ ev vc reverse ta tb (S (slots ta tb (m / M))) (init_pairs l0)) <> Fuel.
Proof.
  exact (dichotomy_terminates _ ev vc reverse ta tb Htr linv allfree vc_some (m / M) Hdelta vc_wide _ linv_init).
Qed.
Theorem pairs_progressive_terminates :
  snd (progressive _ ev vc reverse ta tb (2 + slots ta tb (m / M)) (init_pairs l0)) <> Fuel.
Proof.
  exact (progressive_terminates _ ev vc reverse ta tb Htr linv allfree vc_some (m / M) Hdelta vc_wide _ linv_init).
Qed.
End Inst.
End Lists.
