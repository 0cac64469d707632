(* Reeds and Shepp: the candidates, selection of the least one. *)
From Coq Require Import Reals ZArith List Bool Lia Lra.
From Verif Require Import Base XReal PolyProofs CurvModel CurvSpec CurvProofs3 AngleProofs DubinsModel DubinsSpec
  DubinsProofs DubinsProofs2 DubinsProofs3 RSModel RSProofs RSProofs2.
Import ListNotations.
Open Scope R_scope.

Lemma norm1_opp l : norm1 (opp l) = norm1 l.
Proof. unfold opp. induction l as [|a l IH]; [reflexivity|]. cbn. rewrite Rabs_Ropp. f_equal. exact IH. Qed.
Lemma norm1_nonneg l : 0 <= norm1 l.
Proof. induction l as [|a l IH]; cbn; [lra|]. pose proof (Rabs_pos a). unfold norm1 in IH. lra. Qed.

(* the lengths match the type: no length beyond the last segment *)
Definition fits (ty : nat) (l : list R) : Prop := Forall2 (fun o a => o = None -> a = 0) (rs_types ty) l.
Lemma fits_opp ty l : fits ty l -> fits ty (opp l).
Proof.
  unfold fits, opp. intros H. induction H as [|o a os l' H0 _ IH]; constructor; [|exact IH].
  intros E. rewrite (H0 E). ring.
Qed.

(* what is expected from a candidate; e is the part of its length that is
   not in L *)
Definition good (x y phi e : R) (ty : nat) (l : list R) (L : R) : Prop :=
  ends (segs (rs_types ty)) l x y phi /\ fits ty l /\ norm1 l = L + e.

Lemma form_good a b ls cost e ty l L :
  (forall t u v, fits a (ls t u v) /\ fits b (ls t u v) /\ norm1 (ls t u v) = cost t u v + e) ->
  form a b ls cost ty l L -> fits ty l /\ norm1 l = L + e.
Proof.
  intros H [Hty [t [u [v [Hl ->]]]]]. destruct (H t u v) as [Fa [Fb N]].
  destruct Hl as [-> | ->]; (split; [|rewrite ?norm1_opp; exact N]); destruct Hty as [-> | ->]; try assumption; apply fits_opp; assumption.
Qed.
Lemma four_good f a b ls cost e ss gx gy x y phi ty l L : compatible gx gy ->
  (forall x y phi t u v, f x y (cos phi) (sin phi) phi = Some (t, u, v) ->
     ends ss (ls t u v) (gx x y (cos phi) (sin phi)) (gy x y (cos phi) (sin phi)) phi) ->
  segs (rs_types a) = ss -> segs (rs_types b) = map mirror ss ->
  (forall t u v, fits a (ls t u v) /\ fits b (ls t u v) /\ norm1 (ls t u v) = cost t u v + e) ->
  In (Some (ty, l, L)) (four f a b ls cost x y (cos phi) (sin phi) phi) ->
  good (gx x y (cos phi) (sin phi)) (gy x y (cos phi) (sin phi)) phi e ty l L.
Proof.
  intros Hg Hf Ha Hb Hn Hin.
  destruct (four_ends f a b ls cost ss gx gy x y phi ty l L Hg Hf Ha Hb Hin) as [E F].
  destruct (form_good _ _ _ _ e _ _ _ Hn F) as [F1 F2]. split; [exact E|]. split; assumption.
Qed.

Ltac fitting := unfold fits; cbn; repeat (constructor; [intros; try discriminate; reflexivity|]); constructor.
Lemma abs_0 : Rabs 0 = 0. Proof. apply Rabs_R0. Qed.
Lemma abs_half : Rabs (- / 2 * PI) = / 2 * PI.
Proof. pose proof PI_RGT_0. rewrite Rabs_left; lra. Qed.

Lemma bb x y phi : xb (xb x y (cos phi) (sin phi)) (yb x y (cos phi) (sin phi)) (cos phi) (sin phi) = x /\
  yb (xb x y (cos phi) (sin phi)) (yb x y (cos phi) (sin phi)) (cos phi) (sin phi) = y.
Proof.
  unfold xb, yb. pose proof (trig1 phi) as T. split.
  - transitivity (x * (sin phi * sin phi + cos phi * cos phi)); [ring | rewrite T; ring].
  - transitivity (y * (sin phi * sin phi + cos phi * cos phi)); [ring | rewrite T; ring].
Qed.

Section Cands.
Variables x y phi : R.
Notation c := (cos phi).
Notation s := (sin phi).

Lemma CSC_good ty l L : In (Some (ty, l, L)) (CSC x y c s phi) -> good x y phi 0 ty l L.
Proof.
  unfold CSC. rewrite in_app_iff. intros [H|H].
  - refine (four_good _ _ _ _ _ 0 [L_SEG; S_SEG; L_SEG] _ _ x y phi ty l L compatible_id _ _ _ _ H); [ | reflexivity | reflexivity | ].
    + intros x0 y0 phi0 t u v E. apply (ends_pad _ [t; u; v] [0; 0]); [reflexivity|]. exact (LpSpLp_ends _ _ _ _ _ _ E).
    + intros t u v. split; [fitting|]. split; [fitting|]. cbn. rewrite abs_0. unfold cost1. ring.
  - refine (four_good _ _ _ _ _ 0 [L_SEG; S_SEG; R_SEG] _ _ x y phi ty l L compatible_id _ _ _ _ H); [ | reflexivity | reflexivity | ].
    + intros x0 y0 phi0 t u v E. apply (ends_pad _ [t; u; v] [0; 0]); [reflexivity|]. exact (LpSpRp_ends _ _ _ _ _ _ E).
    + intros t u v. split; [fitting|]. split; [fitting|]. cbn. rewrite abs_0. unfold cost1. ring.
Qed.
Lemma CCC_good ty l L : In (Some (ty, l, L)) (CCC x y c s phi) -> good x y phi 0 ty l L.
Proof.
  unfold CCC. rewrite in_app_iff. intros [H|H].
  - refine (four_good _ _ _ _ _ 0 [L_SEG; R_SEG; L_SEG] _ _ x y phi ty l L compatible_id _ _ _ _ H); [ | reflexivity | reflexivity | ].
    + intros x0 y0 phi0 t u v E. apply (ends_pad _ [t; u; v] [0; 0]); [reflexivity|]. exact (LpRmL_ends _ _ _ _ _ _ E).
    + intros t u v. split; [fitting|]. split; [fitting|]. cbn. rewrite abs_0. unfold cost1. ring.
  - destruct (bb x y phi) as [B1 B2]. enough (G : good (xb (xb x y c s) (yb x y c s) c s) (yb (xb x y c s) (yb x y c s) c s) phi 0 ty l L) by (rewrite B1, B2 in G; exact G).
    refine (four_good _ _ _ _ _ 0 [L_SEG; R_SEG; L_SEG] _ _ _ _ phi ty l L compatible_b _ _ _ _ H); [ | reflexivity | reflexivity | ].
    + intros x0 y0 phi0 t u v E.
      apply (ends_pad _ [v; u; t] [0; 0]); [reflexivity|].
      refine (ends_backward _ [t; u; v] _ _ _ _ (LpRmL_ends _ _ _ _ _ _ E)). reflexivity.
    + intros t u v. split; [fitting|]. split; [fitting|]. cbn. rewrite abs_0. unfold cost1. ring.
Qed.
Lemma CCCC_good ty l L : In (Some (ty, l, L)) (CCCC x y c s phi) -> good x y phi 0 ty l L.
Proof.
  unfold CCCC. rewrite in_app_iff. intros [H|H].
  - refine (four_good _ _ _ _ _ 0 [L_SEG; R_SEG; L_SEG; R_SEG] _ _ x y phi ty l L compatible_id _ _ _ _ H); [ | reflexivity | reflexivity | ].
    + intros x0 y0 phi0 t u v E. apply (ends_pad _ [t; u; - u; v] [0]); [reflexivity|]. exact (LpRupLumRm_ends _ _ _ _ _ _ E).
    + intros t u v. split; [fitting|]. split; [fitting|]. cbn. rewrite abs_0, Rabs_Ropp. unfold cost2. ring.
  - refine (four_good _ _ _ _ _ 0 [L_SEG; R_SEG; L_SEG; R_SEG] _ _ x y phi ty l L compatible_id _ _ _ _ H); [ | reflexivity | reflexivity | ].
    + intros x0 y0 phi0 t u v E. apply (ends_pad _ [t; u; u; v] [0]); [reflexivity|]. exact (LpRumLumRp_ends _ _ _ _ _ _ E).
    + intros t u v. split; [fitting|]. split; [fitting|]. cbn. rewrite abs_0. unfold cost2. ring.
Qed.
Lemma CCSC_good ty l L : In (Some (ty, l, L)) (CCSC x y c s phi) -> good x y phi (/ 2 * PI) ty l L.
Proof.
  unfold CCSC. rewrite !in_app_iff. destruct (bb x y phi) as [B1 B2]. intros [H|[H|[H|H]]].
  - refine (four_good _ _ _ _ _ _ [L_SEG; R_SEG; S_SEG; L_SEG] _ _ x y phi ty l L compatible_id _ _ _ _ H); [ | reflexivity | reflexivity | ].
    + intros x0 y0 phi0 t u v E. apply (ends_pad _ [t; - / 2 * PI; u; v] [0]); [reflexivity|]. exact (LpRmSmLm_ends _ _ _ _ _ _ E).
    + intros t u v. split; [fitting|]. split; [fitting|]. cbn [norm1 fold_right]. rewrite abs_0, abs_half. unfold cost1. ring.
  - refine (four_good _ _ _ _ _ _ [L_SEG; R_SEG; S_SEG; R_SEG] _ _ x y phi ty l L compatible_id _ _ _ _ H); [ | reflexivity | reflexivity | ].
    + intros x0 y0 phi0 t u v E. apply (ends_pad _ [t; - / 2 * PI; u; v] [0]); [reflexivity|]. exact (LpRmSmRm_ends _ _ _ _ _ _ E).
    + intros t u v. split; [fitting|]. split; [fitting|]. cbn [norm1 fold_right]. rewrite abs_0, abs_half. unfold cost1. ring.
  - enough (G : good (xb (xb x y c s) (yb x y c s) c s) (yb (xb x y c s) (yb x y c s) c s) phi (/ 2 * PI) ty l L) by (rewrite B1, B2 in G; exact G).
    refine (four_good _ _ _ _ _ _ [L_SEG; S_SEG; R_SEG; L_SEG] _ _ _ _ phi ty l L compatible_b _ _ _ _ H); [ | reflexivity | reflexivity | ].
    + intros x0 y0 phi0 t u v E.
      apply (ends_pad _ [v; u; - / 2 * PI; t] [0]); [reflexivity|].
      refine (ends_backward _ [t; - / 2 * PI; u; v] _ _ _ _ (LpRmSmLm_ends _ _ _ _ _ _ E)). reflexivity.
    + intros t u v. split; [fitting|]. split; [fitting|]. cbn [norm1 fold_right]. rewrite abs_0, abs_half. unfold cost1. ring.
  - enough (G : good (xb (xb x y c s) (yb x y c s) c s) (yb (xb x y c s) (yb x y c s) c s) phi (/ 2 * PI) ty l L) by (rewrite B1, B2 in G; exact G).
    refine (four_good _ _ _ _ _ _ [R_SEG; S_SEG; R_SEG; L_SEG] _ _ _ _ phi ty l L compatible_b _ _ _ _ H); [ | reflexivity | reflexivity | ].
    + intros x0 y0 phi0 t u v E.
      apply (ends_pad _ [v; u; - / 2 * PI; t] [0]); [reflexivity|].
      refine (ends_backward _ [t; - / 2 * PI; u; v] _ _ _ _ (LpRmSmRm_ends _ _ _ _ _ _ E)). reflexivity.
    + intros t u v. split; [fitting|]. split; [fitting|]. cbn [norm1 fold_right]. rewrite abs_0, abs_half. unfold cost1. ring.
Qed.
Lemma CCSCC_good ty l L : In (Some (ty, l, L)) (CCSCC x y c s phi) -> good x y phi PI ty l L.
Proof.
  unfold CCSCC. intros H.
  refine (four_good _ _ _ _ _ _ [L_SEG; R_SEG; S_SEG; L_SEG; R_SEG] _ _ x y phi ty l L compatible_id _ _ _ _ H); [ | reflexivity | reflexivity | ].
  + intros x0 y0 phi0 t u v E. exact (LpRmSLmRp_ends _ _ _ _ _ _ E).
  + intros t u v. split; [fitting|]. split; [fitting|]. cbn [norm1 fold_right]. rewrite abs_half. unfold cost1. field.
Qed.

(* ---- selection ---- *)
(* every candidate, with the length it stands for *)
Definition cands : list (cand * R) :=
  map (fun o => (o, 0)) (CSC x y c s phi ++ CCC x y c s phi ++ CCCC x y c s phi) ++
  map (fun o => (o, / 2 * PI)) (CCSC x y c s phi) ++ map (fun o => (o, PI)) (CCSCC x y c s phi).
Definition candidate (ty : nat) (l : list R) : Prop := exists L e, In (Some (ty, l, L), e) cands.

Lemma cands_good ty l L e : In (Some (ty, l, L), e) cands -> good x y phi e ty l L.
Proof.
  unfold cands. rewrite !in_app_iff, !in_map_iff.
  intros [[o [E H]]|[[o [E H]]|[o [E H]]]]; injection E as -> <-.
  - rewrite !in_app_iff in H. destruct H as [H|[H|H]]; [apply CSC_good | apply CCC_good | apply CCCC_good]; exact H.
  - apply CCSC_good, H.
  - apply CCSCC_good, H.
Qed.

Lemma pick_in cs : forall Lmin d ty l, pick cs Lmin d = Some (ty, l) ->
  d = Some (ty, l) \/ exists L, In (Some (ty, l, L)) cs.
Proof.
  induction cs as [|[[[ty' l'] L']|] cs IH]; intros Lmin d ty l H; cbn [pick] in H; [left; exact H| |].
  - destruct (above Lmin L').
    + destruct (IH _ _ _ _ H) as [E|[L E]]; right; [injection E as -> ->; exists L'; left; reflexivity | exists L; right; exact E].
    + destruct (IH _ _ _ _ H) as [E|[L E]]; [left; exact E | right; exists L; right; exact E].
  - destruct (IH _ _ _ _ H) as [E|[L E]]; [left; exact E | right; exists L; right; exact E].
Qed.
Lemma pick_least cs : forall Lmin d,
  match pick cs Lmin d with
  | None => d = None /\ forall ty l L, In (Some (ty, l, L)) cs -> above Lmin L = false
  | Some (ty, l) =>
      (d = Some (ty, l) /\ (forall ty' l' L', In (Some (ty', l', L')) cs -> above Lmin L' = false)) \/
      (exists L, In (Some (ty, l, L)) cs /\ above Lmin L = true /\ forall ty' l' L', In (Some (ty', l', L')) cs -> L <= L')
  end.
Proof.
  induction cs as [|[[[ty' l'] L']|] cs IH]; intros Lmin d; cbn [pick].
  - destruct d as [[ty l]|]; [left; split; [reflexivity|]; intros ? ? ? [] | split; [reflexivity|]; intros ? ? ? []].
  - destruct (above Lmin L') eqn:Ea.
    + specialize (IH (Some L') (Some (ty', l'))). destruct (pick cs (Some L') (Some (ty', l'))) as [[ty l]|].
      * right. destruct IH as [[E N]|[L [I [A N]]]].
        -- injection E as -> ->. exists L'. split; [left; reflexivity|]. split; [exact Ea|].
           intros ty2 l2 L2 [H|H]; [injection H as _ _ ->; lra|]. pose proof (N _ _ _ H) as K. cbn in K.
           destruct (rltb_spec L2 L'); [discriminate | lra].
        -- exists L. cbn in A. destruct (rltb_spec L L') as [Lt|]; [|discriminate].
           split; [right; exact I|]. split.
           ++ destruct Lmin as [m|]; [|reflexivity]. cbn in *. destruct (rltb_spec L' m); [|discriminate]. destruct (rltb_spec L m); [reflexivity|lra].
           ++ intros ty2 l2 L2 [H|H]; [injection H as _ _ <-; lra | exact (N _ _ _ H)].
      * destruct IH as [E _]. discriminate.
    + specialize (IH Lmin d). destruct (pick cs Lmin d) as [[ty l]|].
      * destruct IH as [[E N]|[L [I [A N]]]].
        -- left. split; [exact E|]. intros ty2 l2 L2 [H|H]; [injection H as _ _ <-; exact Ea | exact (N _ _ _ H)].
        -- right. exists L. split; [right; exact I|]. split; [exact A|].
           intros ty2 l2 L2 [H|H]; [|exact (N _ _ _ H)]. injection H as _ _ <-.
           destruct Lmin as [m|]; [|discriminate]. cbn in *. destruct (rltb_spec L' m); [discriminate|]. destruct (rltb_spec L m); [lra|discriminate].
      * destruct IH as [E N]. split; [exact E|]. intros ty2 l2 L2 [H|H]; [injection H as _ _ <-; exact Ea | exact (N _ _ _ H)].
  - specialize (IH Lmin d). destruct (pick cs Lmin d) as [[ty l]|].
    + destruct IH as [[E N]|[L [I [A N]]]]; [left | right].
      * split; [exact E|]. intros ty2 l2 L2 [H|H]; [discriminate | exact (N _ _ _ H)].
      * exists L. split; [right; exact I|]. split; [exact A|]. intros ty2 l2 L2 [H|H]; [discriminate | exact (N _ _ _ H)].
    + destruct IH as [E N]. split; [exact E|]. intros ty2 l2 L2 [H|H]; [discriminate | exact (N _ _ _ H)].
Qed.

Section Search.
Variable rho : R.
Lemma in_cands0 o cs : In o cs -> incl cs (CSC x y c s phi ++ CCC x y c s phi ++ CCCC x y c s phi) -> In (o, 0) cands.
Proof. intros H I. unfold cands. apply in_or_app. left. apply in_map_iff. exists o. split; [reflexivity | apply I, H]. Qed.
Lemma in_CSC o : In o (CSC x y c s phi) -> In (o, 0) cands.
Proof. intros H. apply (in_cands0 _ _ H). intros a Ha. apply in_or_app. auto. Qed.
Lemma in_CCC o : In o (CCC x y c s phi) -> In (o, 0) cands.
Proof. intros H. apply (in_cands0 _ _ H). intros a Ha. apply in_or_app. right. apply in_or_app. auto. Qed.
Lemma in_CCCC o : In o (CCCC x y c s phi) -> In (o, 0) cands.
Proof. intros H. apply (in_cands0 _ _ H). intros a Ha. apply in_or_app. right. apply in_or_app. auto. Qed.
Lemma in_CCSC o : In o (CCSC x y c s phi) -> In (o, / 2 * PI) cands.
Proof. intros H. unfold cands. apply in_or_app. right. apply in_or_app. left. apply in_map_iff. exists o. auto. Qed.
Lemma in_CCSCC o : In o (CCSCC x y c s phi) -> In (o, PI) cands.
Proof. intros H. unfold cands. apply in_or_app. right. apply in_or_app. right. apply in_map_iff. exists o. auto. Qed.

Lemma search_in ty l : rs_search rho x y c s phi = Some (ty, l) -> candidate ty l.
Proof.
  unfold rs_search, family. intros H.
  apply pick_in in H. destruct H as [H|[L H]]; [|exists L, PI; apply in_CCSCC, H].
  apply pick_in in H. destruct H as [H|[L H]]; [|exists L, (/ 2 * PI); apply in_CCSC, H].
  apply pick_in in H. destruct H as [H|[L H]]; [|exists L, 0; apply in_CCCC, H].
  apply pick_in in H. destruct H as [H|[L H]]; [|exists L, 0; apply in_CCC, H].
  apply pick_in in H. destruct H as [H|[L H]]; [discriminate|exists L, 0; apply in_CSC, H].
Qed.

(* least so far *)
Definition least (cs : list (nat * list R * R)) (d : data) : Prop :=
  forall ty l L, In (ty, l, L) cs -> exists ty0 l0, d = Some (ty0, l0) /\ norm1 l0 <= norm1 l.
Definition some_of (cs : list cand) : list (nat * list R * R) :=
  flat_map (fun o => match o with Some r => [r] | None => [] end) cs.
Lemma in_some_of cs r : In r (some_of cs) <-> In (Some r) cs.
Proof.
  unfold some_of. rewrite in_flat_map. split.
  - intros [[a|] [H I]]; [|destruct I]. destruct I as [<-|[]]. exact H.
  - intros H. exists (Some r). split; [exact H | left; reflexivity].
Qed.
Lemma family_least e done cs d : least done d ->
  (forall ty l L, In (Some (ty, l, L)) cs -> norm1 l = L + e) -> least (some_of cs ++ done) (family 1 e cs d).
Proof.
  intros Hd Hc ty l L Hin. unfold family.
  pose proof (pick_least cs (match rs_length 1 d with None => None | Some m => Some (m - e) end) d) as P.
  apply in_app_or in Hin. rewrite in_some_of in Hin.
  destruct (pick cs _ d) as [[ty0 l0]|].
  - exists ty0, l0. split; [reflexivity|].
    destruct P as [[E N]|[L0 [I [A N]]]].
    + destruct Hin as [Hin|Hin].
      * pose proof (N _ _ _ Hin) as K. rewrite E in K. cbn in K. rewrite (Hc _ _ _ Hin).
        destruct (rltb_spec L (1 * norm1 l0 - e)); [discriminate|]. lra.
      * destruct (Hd _ _ _ Hin) as [ty1 [l1 [E1 H1]]]. rewrite E in E1. injection E1 as <- <-. exact H1.
    + rewrite (Hc _ _ _ I). destruct Hin as [Hin|Hin].
      * rewrite (Hc _ _ _ Hin). pose proof (N _ _ _ Hin). lra.
      * destruct (Hd _ _ _ Hin) as [ty1 [l1 [E1 H1]]]. rewrite E1 in A. cbn in A.
        destruct (rltb_spec L0 (1 * norm1 l1 - e)); [|discriminate]. lra.
  - destruct P as [E N]. destruct Hin as [Hin|Hin].
    + pose proof (N _ _ _ Hin) as K. rewrite E in K. discriminate.
    + destruct (Hd _ _ _ Hin) as [ty1 [l1 [E1 _]]]. rewrite E in E1. discriminate.
Qed.
Lemma search_least ty l : candidate ty l ->
  exists ty0 l0, rs_search 1 x y c s phi = Some (ty0, l0) /\ norm1 l0 <= norm1 l.
Proof.
  assert (H0 : least [] None) by (intros ? ? ? []).
  assert (S5 : least (some_of (CCSCC x y c s phi) ++ some_of (CCSC x y c s phi) ++ some_of (CCCC x y c s phi) ++
                      some_of (CCC x y c s phi) ++ some_of (CSC x y c s phi) ++ []) (rs_search 1 x y c s phi)).
  { unfold rs_search. repeat (apply family_least; [|intros ty' l' L' Hin]); [exact H0| | | | |].
    - apply (CSC_good _ _ _ Hin).
    - apply (CCC_good _ _ _ Hin).
    - apply (CCCC_good _ _ _ Hin).
    - apply (CCSC_good _ _ _ Hin).
    - apply (CCSCC_good _ _ _ Hin). }
  intros [L [e Hin]]. apply (S5 ty l L). unfold cands in Hin. rewrite !in_app_iff, !in_map_iff in Hin.
  rewrite !in_app_iff, !in_some_of.
  destruct Hin as [[o [E H]]|[[o [E H]]|[o [E H]]]]; injection E as -> _; rewrite ?in_app_iff in H; tauto.
Qed.
(* a candidate exists: the search finds one, whatever the radius *)
Lemma pick_keeps cs : forall Lmin d, d <> None -> pick cs Lmin d <> None.
Proof.
  induction cs as [|[[[ty' l'] L']|] cs IH]; intros Lmin d N; cbn [pick]; [exact N| |apply IH, N].
  destruct (above Lmin L'); apply IH; [discriminate | exact N].
Qed.
Lemma family_some e cs d : d <> None \/ (exists r, In (Some r) cs) -> family rho e cs d <> None.
Proof.
  unfold family. intros H. destruct d as [p|]; [apply pick_keeps; discriminate|].
  destruct H as [H|[[[ty l] L] H]]; [contradiction|]. cbn [rs_length].
  pose proof (pick_least cs None None) as P. destruct (pick cs None None); [discriminate|].
  destruct P as [_ N]. pose proof (N _ _ _ H) as K. discriminate.
Qed.
Lemma search_some ty l : candidate ty l -> rs_search rho x y c s phi <> None.
Proof.
  intros [L [e Hin]]. unfold cands in Hin. rewrite !in_app_iff, !in_map_iff in Hin. unfold rs_search.
  destruct Hin as [[o [E H]]|[[o [E H]]|[o [E H]]]]; injection E as -> _; [rewrite !in_app_iff in H; destruct H as [H|[H|H]]|..].
  - do 4 (apply family_some; left). apply family_some. right. eauto.
  - do 3 (apply family_some; left). apply family_some. right. eauto.
  - do 2 (apply family_some; left). apply family_some. right. eauto.
  - apply family_some; left. apply family_some. right. eauto.
  - apply family_some. right. eauto.
Qed.
End Search.
End Cands.
