From Verif Require Import Base ContEditModel.
From Coq Require Import Lqa.

(* ---- trees of paths ---- *)
Section Tree.
Variable leaf : Type.
Variable len : leaf -> Q.
Variable check : bool -> leaf -> option (leaf * Q).
Notation tree := (ptree leaf).
Section Ind.
Variable P : tree -> Prop.
Hypothesis HL : forall l, P (Leaf l).
Hypothesis HV : forall ps, Forall P ps -> P (Vec ps).
Fixpoint ptree_ind' (p : tree) : P p :=
  match p with
  | Leaf l => HL l
  | Vec ps => HV ps ((fix go ps := match ps return Forall P ps with [] => Forall_nil P | q :: r => Forall_cons q (ptree_ind' q) (go r) end) ps)
  end.
End Ind.

(* leaves of a tree, from first to last *)
Fixpoint leaves (p : tree) : list leaf :=
  match p with Leaf l => [l] | Vec ps => flat_map leaves ps end.
Definition total (ls : list leaf) : Q := fold_right (fun l a => (len l + a)%Q) 0%Q ls.
Lemma total_app a b : (total (a ++ b) == total a + total b)%Q.
Proof. induction a as [|x a IH]; [change (total []) with 0%Q; cbn [app]; lra|]. change (len x + total (a ++ b) == (len x + total a) + total b)%Q. rewrite IH. lra. Qed.
Lemma tlen_total p : (tlen leaf len p == total (leaves p))%Q.
Proof.
  induction p as [l|ps IH] using ptree_ind'; cbn [tlen leaves].
  - unfold total. cbn [fold_right]. lra.
  - assert (H : forall a, (fold_left (fun a q => (a + tlen leaf len q)%Q) ps a == a + total (flat_map leaves ps))%Q).
    { induction IH as [|q r Hq Hr IHr]; intros a; cbn [fold_left flat_map]; [cbn; lra|].
      rewrite IHr, total_app, Hq. lra. }
    rewrite H. lra.
Qed.

Definition accepted (l : leaf) : Prop := check false l = None.
Definition tspec (ls : list leaf) (o : tree * option Q) (p : tree) : Prop :=
  match o with
  | (part, None) => part = p /\ Forall accepted ls
  | (part, Some t) => exists pre l post lp tl, ls = pre ++ l :: post /\ Forall accepted pre /\
      check false l = Some (lp, tl) /\ leaves part = pre ++ [lp] /\ (t == total pre + tl)%Q
  end.
Lemma tvalidate_forward p : exists o, tvalidate leaf len check false p = Ok o /\ tspec (leaves p) o p.
Proof.
  induction p as [l|ps IH] using ptree_ind'; cbn [tvalidate].
  - destruct (check false l) as [[part t]|] eqn:E.
    + exists (Leaf part, Some t). split; [reflexivity|]. exists [], l, [], part, t. cbn. repeat split; auto. lra.
    + exists (Leaf l, None). split; [reflexivity|]. split; [reflexivity|]. cbn [leaves]. constructor; auto.
  - set (loop := fix loop (ps done : list tree) (param : Q) : res (tree * option Q) := _).
    assert (H : forall done param, (param == total (flat_map leaves done))%Q -> Forall accepted (flat_map leaves done) ->
      exists o, loop ps done param = Ok o /\ tspec (flat_map leaves (done ++ ps)) o (Vec (done ++ ps))).
    { induction IH as [|q r [o [Hq1 Hq2]] Hr IHr]; intros done param Hp Hd.
      - exists (Vec done, None). split; [reflexivity|]. rewrite app_nil_r. split; [reflexivity|exact Hd].
      - cbn [loop]. rewrite Hq1. destruct o as [part [t|]].
        + exists (Vec (done ++ [part]), Some (t + param)%Q). split; [reflexivity|].
          destruct Hq2 as [pre [l [post [lp [tl [E1 [E2 [E3 [E4 E5]]]]]]]]].
          exists (flat_map leaves done ++ pre), l, (post ++ flat_map leaves r), lp, tl.
          split; [rewrite flat_map_app; cbn [flat_map]; rewrite E1, <- !app_assoc; reflexivity|].
          split; [apply Forall_app; auto|split; [exact E3|split]].
          * cbn [leaves]. rewrite flat_map_app. cbn [flat_map]. rewrite E4, app_nil_r, app_assoc. reflexivity.
          * rewrite total_app, E5, Hp. lra.
        + destruct Hq2 as [-> Hq2].
          destruct (IHr (done ++ [q]) (param + tlen leaf len q)%Q) as [o [O1 O2]].
          * rewrite flat_map_app, total_app, Hp, tlen_total. cbn [flat_map]. rewrite app_nil_r. lra.
          * rewrite flat_map_app. apply Forall_app; split; [exact Hd|]. cbn [flat_map]. rewrite app_nil_r. exact Hq2.
          * exists o. split; [exact O1|]. rewrite <- app_assoc in O2. exact O2. }
    destruct (H [] 0%Q) as [o HO]; [cbn; lra|constructor|]. exists o. exact HO.
Qed.
Lemma tvalidate_reverse ps : tvalidate leaf len check true (Vec ps) = UB.
Proof. reflexivity. Qed.
End Tree.

(* ---- removeObjectTo_b ---- *)
Section SetNth.
Context {A : Type}.
Lemma setnth_length (l : list A) i a : length (setnth l i a) = length l.
Proof.
  unfold setnth. rewrite app_length, firstn_length. pose proof (skipn_length i l) as H.
  destruct (skipn i l) eqn:E; cbn [length] in *; lia.
Qed.
Lemma setnth_firstn (l : list A) i a : i < length l -> firstn (i + 1) (setnth l i a) = firstn i l ++ [a].
Proof.
  intros H. unfold setnth. pose proof (skipn_length i l) as HL. destruct (skipn i l) as [|x r]; cbn [length] in HL; [lia|].
  rewrite firstn_app, firstn_length, Nat.min_l by lia. replace (i + 1 - i) with 1 by lia. cbn [firstn].
  rewrite firstn_all2; [reflexivity|rewrite firstn_length; lia].
Qed.
Lemma setnth_skipn (l : list A) i j a : i < j -> skipn j (setnth l i a) = skipn j l.
Proof.
  intros H. unfold setnth. destruct (le_lt_dec (length l) i) as [L|L].
  - rewrite (skipn_all2 l L). rewrite app_nil_r, firstn_all2 by lia. reflexivity.
  - assert (E : l = firstn i l ++ skipn i l) by (symmetry; apply firstn_skipn).
    remember (skipn i l) as s eqn:Es. destruct s as [|x r].
    + assert (X : length (skipn i l) = 0) by (rewrite <- Es; reflexivity). rewrite skipn_length in X. lia.
    + rewrite E at 2. rewrite !skipn_app, firstn_length, Nat.min_l by lia.
      destruct (j - i) as [|d] eqn:D; [lia|]. reflexivity.
Qed.
Lemma firstn_snoc (l : list A) i a : nth_error l i = Some a -> firstn (i + 1) l = firstn i l ++ [a].
Proof.
  revert i; induction l as [|x l IH]; intros [|i] H; cbn in H; try discriminate.
  - injection H as ->. reflexivity.
  - cbn [Nat.add firstn app]. rewrite (IH i H). reflexivity.
Qed.
Lemma nth_error_skipn (l l' : list A) i : skipn i l = skipn i l' -> nth_error l i = nth_error l' i.
Proof.
  revert l l'; induction i as [|i IH]; intros l l' H; [cbn in H; subst; reflexivity|].
  destruct l as [|x l], l' as [|y l']; cbn [skipn nth_error] in *; auto.
  - specialize (IH [] l'). rewrite skipn_nil in IH. rewrite <- (IH H). destruct i; reflexivity.
  - specialize (IH l []). rewrite skipn_nil in IH. rewrite (IH H). destruct i; reflexivity.
Qed.
Lemma skipn_S_eq (l l' : list A) i : skipn i l = skipn i l' -> skipn (i + 1) l = skipn (i + 1) l'.
Proof.
  intros H. assert (T : forall x : list A, skipn (i + 1) x = tl (skipn i x)).
  { clear. induction i as [|i IH]; intros [|y x]; cbn [Nat.add skipn tl]; auto. }
  rewrite !T, H. reflexivity.
Qed.
End SetNth.

Definition keepb (o : nat) (pr : cpair * Q) : bool := negb (c_right (fst pr) =? o).
Lemma compact_spec o (P : list cpair) (R : list Q) : length R = length P ->
  forall k i last ps rs, k + i = length P -> last <= i -> length ps = length P -> length rs = length P ->
  firstn last ps = map fst (filter (keepb o) (firstn i (combine P R))) ->
  firstn last rs = map snd (filter (keepb o) (firstn i (combine P R))) ->
  skipn i ps = skipn i P -> skipn i rs = skipn i R ->
  last = length (filter (keepb o) (firstn i (combine P R))) ->
  exists ps' rs', let F := filter (keepb o) (combine P R) in
    compact o ps rs k i last = Ok (ps', rs', length F) /\
    firstn (length F) ps' = map fst F /\ firstn (length F) rs' = map snd F.
Proof.
  intros HPR. induction k as [|k IH]; intros i last ps rs Hk Hli Hps Hrs Hf1 Hf2 Hs1 Hs2 Hlast; cbn [compact].
  - assert (Ei : firstn i (combine P R) = combine P R) by (apply firstn_all2; rewrite combine_length; lia).
    rewrite Ei in *. exists ps, rs. cbn zeta. rewrite <- Hlast. auto.
  - destruct (nth_error P i) as [p|] eqn:EP; [|apply nth_error_None in EP; lia].
    destruct (nth_error R i) as [r|] eqn:ER; [|apply nth_error_None in ER; lia].
    rewrite (nth_error_skipn ps P i Hs1), EP.
    assert (EC : nth_error (combine P R) i = Some (p, r)).
    { clear -EP ER. revert R i EP ER. induction P as [|x P IHP]; intros [|y R] [|i] EP ER; cbn in *; try discriminate; try congruence.
      apply IHP; assumption. }
    assert (EF : firstn (i + 1) (combine P R) = firstn i (combine P R) ++ [(p, r)]) by (apply firstn_snoc; exact EC).
    assert (Fx : filter (keepb o) (firstn (i + 1) (combine P R)) =
      filter (keepb o) (firstn i (combine P R)) ++ (if c_right p =? o then [] else [(p, r)])).
    { rewrite EF, filter_app. cbn [filter]. unfold keepb at 2. cbn [fst]. destruct (c_right p =? o); reflexivity. }
    assert (Lr : length R = length P) by exact HPR.
    assert (Hi : i < length P) by (apply nth_error_Some; congruence).
    destruct (c_right p =? o) eqn:Eo.
    + apply IH; try lia; rewrite ?Fx, ?app_nil_r; auto using skipn_S_eq.
    + destruct (Nat.eqb_spec last i) as [->|Hne].
      * apply IH; try lia; auto using skipn_S_eq.
        -- rewrite Fx, map_app. cbn [map fst]. rewrite <- Hf1. apply firstn_snoc. rewrite (nth_error_skipn ps P i Hs1); exact EP.
        -- rewrite Fx, map_app. cbn [map snd]. rewrite <- Hf2. apply firstn_snoc. rewrite (nth_error_skipn rs R i Hs2); exact ER.
        -- rewrite Fx, app_length. cbn [length]. lia.
      * rewrite (nth_error_skipn rs R i Hs2), ER. apply IH; try lia; rewrite ?setnth_length; auto.
        -- rewrite Fx, map_app. cbn [map fst]. rewrite <- Hf1. apply setnth_firstn. lia.
        -- rewrite Fx, map_app. cbn [map snd]. rewrite <- Hf2. apply setnth_firstn. lia.
        -- rewrite setnth_skipn by lia. apply skipn_S_eq; exact Hs1.
        -- rewrite setnth_skipn by lia. apply skipn_S_eq; exact Hs2.
        -- rewrite Fx, app_length. cbn [length]. lia.
Qed.

(* pairs with their margins *)
Definition entries (b : bpc) : list (cpair * Q) := combine (prs b) (rqs b).
Definition of_entries (b : bpc) (es : list (cpair * Q)) : bpc :=
  {| ja := ja b; jb := jb b; prs := map fst es; rqs := map snd es |}.
Definition wf (b : bpc) : Prop := length (rqs b) = length (prs b).
Lemma filter_len_all {A} (f : A -> bool) l : length (filter f l) = length l <-> forallb f l = true.
Proof.
  induction l as [|x l IH]; cbn; [tauto|]. pose proof (filter_length_le f l). destruct (f x); cbn [length andb].
  - rewrite <- IH. lia.
  - split; [lia|discriminate].
Qed.
Lemma remove_object_spec o b : wf b ->
  remove_object o b = Ok (of_entries b (filter (keepb o) (entries b)), negb (forallb (keepb o) (entries b))).
Proof.
  intros Hw. unfold remove_object. destruct (compact_spec o (prs b) (rqs b) Hw (length (prs b)) 0 0 (prs b) (rqs b))
    as [ps' [rs' [H1 [H2 H3]]]]; try reflexivity; try lia; [exact Hw|].
  rewrite H1. cbn [bind]. rewrite H2, H3. unfold of_entries, entries. f_equal. f_equal. f_equal.
  apply Bool.eq_true_iff_eq. rewrite Nat.eqb_eq, <- filter_len_all, combine_length, Hw, Nat.min_id. reflexivity.
Qed.

(* ---- removeObstacleFromJoint ---- *)
Definition on_joint (j : nat) (b : bpc) : bool := (ja b =? j) && (jb b =? 0).
Definition touched (j o : nat) (v : vld) : bool :=
  match v with Solid b => on_joint j b && negb (forallb (keepb o) (entries b)) | _ => false end.
Definition stripped (j o : nat) (v : vld) : list vld :=
  match v with
  | Solid b => if touched j o v
               then match filter (keepb o) (entries b) with [] => [] | es => [Solid (of_entries b es)] end
               else [v]
  | _ => [v]
  end.
Definition emptied (j o : nat) (v : vld) : bool :=
  touched j o v && match stripped j o v with [] => true | _ => false end.
Definition wfv (v : vld) : Prop := match v with Solid b => wf b | NoJoint ps rs => length rs = length ps | Other _ => True end.
(* a validator left without pair is followed by one that is not concerned *)
Fixpoint no_skip (j o : nat) (vs : list vld) : bool :=
  match vs with
  | [] => true
  | v :: r => (negb (emptied j o v) || match r with [] => false | w :: _ => negb (touched j o w) end) && no_skip j o r
  end.
Lemma stripped_untouched j o v : touched j o v = false -> stripped j o v = [v].
Proof. unfold stripped. destruct v; auto. intros ->. reflexivity. Qed.
Lemma filter_all {A} (f : A -> bool) l : forallb f l = true -> filter f l = l.
Proof. induction l as [|x l IH]; cbn; [auto|]. intros H. apply andb_true_iff in H as [-> H]. rewrite (IH H). reflexivity. Qed.
Lemma of_entries_id b : wf b -> of_entries b (entries b) = b.
Proof.
  intros H. destruct b as [a c P R]. unfold of_entries, entries, wf in *. cbn [prs rqs ja jb] in *. f_equal.
  - revert R H; induction P as [|x P IH]; intros [|y R] H; cbn in *; try discriminate; auto. rewrite IH; auto.
  - revert R H; induction P as [|x P IH]; intros [|y R] H; cbn in *; try discriminate; auto. rewrite IH; auto.
Qed.
Lemma of_entries_prs b es : prs (of_entries b es) = [] <-> es = [].
Proof. unfold of_entries. cbn [prs]. destruct es; cbn; split; congruence. Qed.
Lemma remove_loop_spec j o : forall n vs, length vs <= n -> Forall wfv vs -> no_skip j o vs = true ->
  remove_loop j o vs = Ok (flat_map (stripped j o) vs, existsb (touched j o) vs).
Proof.
  induction n as [|n IH]; intros vs Hn Hw Hs.
  { destruct vs; [reflexivity|cbn in Hn; lia]. }
  destruct vs as [|v r]; [reflexivity|]. cbn [length] in Hn. inversion Hw as [|? ? Hv Hr]; subst.
  cbn [no_skip] in Hs. apply andb_true_iff in Hs as [Hs1 Hs2].
  assert (IHr : remove_loop j o r = Ok (flat_map (stripped j o) r, existsb (touched j o) r)) by (apply IH; [lia|assumption|assumption]).
  destruct v as [b|ps rs|i]; cbn [remove_loop flat_map existsb].
  - change ((ja b =? j) && (jb b =? 0)) with (on_joint j b).
    destruct (on_joint j b) eqn:EJ.
    + rewrite remove_object_spec by exact Hv. unfold touched at 1. rewrite EJ. cbn [andb].
      destruct (forallb (keepb o) (entries b)) eqn:EA; cbn [negb].
      * rewrite IHr. cbn [bind orb]. rewrite (filter_all _ _ EA), (of_entries_id b Hv). f_equal. f_equal.
        unfold stripped. unfold touched. rewrite EJ, EA. reflexivity.
      * assert (ET : touched j o (Solid b) = true) by (unfold touched; rewrite EJ, EA; reflexivity).
        assert (ES : stripped j o (Solid b) = match filter (keepb o) (entries b) with [] => [] | es => [Solid (of_entries b es)] end)
          by (unfold stripped; rewrite ET; reflexivity).
        unfold emptied in Hs1. rewrite ET, ES in Hs1. rewrite ES. cbn [andb] in Hs1.
        destruct (filter (keepb o) (entries b)) as [|e es] eqn:EF.
        -- change (prs (of_entries b [])) with (@nil cpair). cbn [orb negb] in Hs1.
           destruct r as [|w r']; [discriminate|]. apply negb_true_iff in Hs1.
           inversion Hr as [|? ? Hw0 Hr']; subst.
           cbn [no_skip] in Hs2. apply andb_true_iff in Hs2 as [_ Hs2].
           rewrite (IH r') by (cbn [length] in Hn; try lia; assumption). cbn [bind flat_map app].
           rewrite (stripped_untouched j o w Hs1). reflexivity.
        -- change (prs (of_entries b (e :: es))) with (fst e :: map fst es). cbv iota. rewrite IHr. reflexivity.
    + assert (ET : touched j o (Solid b) = false) by (unfold touched; rewrite EJ; reflexivity).
      rewrite IHr. cbn [bind]. rewrite ET, (stripped_untouched j o _ ET). reflexivity.
  - rewrite IHr. reflexivity.
  - rewrite IHr. reflexivity.
Qed.
Lemma remove_obstacle_spec j o vs : Forall wfv vs -> no_skip j o vs = true ->
  remove_obstacle j o vs = if existsb (touched j o) vs then Ok (flat_map (stripped j o) vs) else Throw.
Proof. intros H1 H2. unfold remove_obstacle. rewrite (remove_loop_spec j o (length vs) vs) by auto. reflexivity. Qed.
(* the last validator is emptied *)
Lemma remove_loop_last j o : forall vs b, Forall wfv vs -> wf b -> emptied j o (Solid b) = true ->
  existsb (touched j o) vs = false -> remove_loop j o (vs ++ [Solid b]) = UB.
Proof.
  induction vs as [|v vs IH]; intros b Hw Hb He Ht.
  - cbn [app remove_loop]. unfold emptied in He. apply andb_true_iff in He as [H1 H2].
    unfold stripped in H2. rewrite H1 in H2. unfold touched in H1. apply andb_true_iff in H1 as [HJ HA].
    change ((ja b =? j) && (jb b =? 0)) with (on_joint j b). rewrite HJ, remove_object_spec by exact Hb. rewrite HA.
    destruct (filter (keepb o) (entries b)); [reflexivity|discriminate].
  - inversion Hw as [|? ? Hv Hr]; subst. cbn [existsb] in Ht. apply orb_false_iff in Ht as [T1 T2].
    specialize (IH b Hr Hb He T2). destruct v as [x|ps rs|i]; cbn [app remove_loop]; rewrite ?IH; try reflexivity.
    change ((ja x =? j) && (jb x =? 0)) with (on_joint j x). destruct (on_joint j x) eqn:EJ; [|reflexivity].
    unfold touched in T1. rewrite EJ in T1. rewrite remove_object_spec by exact Hv. cbn [andb] in T1. rewrite T1. reflexivity.
Qed.

(* ---- filterCollisionPairs ---- *)
Definition movable (rel : nat -> nat -> rmotion) (v : vld) : bool :=
  match v with Solid b => match rel (ja b) (jb b) with Unconstrained => true | _ => false end | _ => true end.
Definition indexed (n : nat) (v : vld) : Prop := match v with Solid b => ja b < n /\ jb b < n | NoJoint _ _ => True | Other _ => False end.
Lemma filter_loop_spec n rel : forall vs fuel kept dis, length vs < fuel -> Forall (indexed n) vs ->
  filter_loop n rel fuel vs kept dis = Ok (kept ++ filter (movable rel) vs, dis ++ filter (fun v => negb (movable rel v)) vs).
Proof.
  induction vs as [|v vs IH]; intros [|f] kept dis Hf Hw; cbn [length] in Hf; try lia; cbn [filter_loop].
  - cbn. rewrite !app_nil_r. reflexivity.
  - inversion Hw as [|? ? Hv Hr]; subst. destruct v as [b|ps rs|i]; [| |destruct Hv].
    + destruct Hv as [H1 H2]. apply Nat.ltb_lt in H1, H2. rewrite H1, H2. cbn [andb filter movable].
      destruct (rel (ja b) (jb b)); cbn [negb]; rewrite IH by (try lia; assumption); rewrite <- app_assoc; reflexivity.
    + rewrite IH by (try lia; assumption). cbn [filter movable negb]. rewrite <- app_assoc. reflexivity.
Qed.
Lemma filter_loop_stuck n rel i r : forall fuel kept dis, filter_loop n rel fuel (Other i :: r) kept dis = Fuel.
Proof. induction fuel as [|f IH]; intros; cbn [filter_loop]; auto. Qed.
Lemma filter_loop_forever n rel : forall pre i r fuel kept dis, Forall (indexed n) pre ->
  filter_loop n rel fuel (pre ++ Other i :: r) kept dis = Fuel.
Proof.
  induction pre as [|v pre IH]; intros i r fuel kept dis Hw; [apply filter_loop_stuck|].
  inversion Hw as [|? ? Hv Hr]; subst. destruct fuel as [|f]; [reflexivity|]. cbn [app filter_loop].
  destruct v as [b|ps rs|k]; [| |destruct Hv].
  - destruct Hv as [H1 H2]. apply Nat.ltb_lt in H1, H2. rewrite H1, H2. cbn [andb].
    destruct (rel (ja b) (jb b)); auto.
  - auto.
Qed.

(* ---- margins ---- *)
Definition margin_of (mat : nat -> nat -> Q) (v : vld) : vld :=
  match v with Solid b => set_margin (mat (ja b) (jb b)) v | _ => v end.
Lemma margins_loop_spec dim mat : forall vs, (forall v, In v vs -> match v with Solid b => ja b < dim /\ jb b < dim | NoJoint _ _ => False | Other _ => True end) ->
  margins_loop dim mat vs = Ok (map (margin_of mat) vs).
Proof.
  induction vs as [|v vs IH]; intros H; [reflexivity|].
  assert (IHv : margins_loop dim mat vs = Ok (map (margin_of mat) vs)) by (apply IH; intros x Hx; apply H; right; exact Hx).
  pose proof (H v (or_introl eq_refl)) as Hv. destruct v as [b|ps rs|i]; [|destruct Hv|]; cbn [margins_loop].
  - destruct Hv as [H1 H2]. apply Nat.ltb_lt in H1, H2. rewrite H1, H2, IHv. reflexivity.
  - rewrite IHv. reflexivity.
Qed.

Definition upd_entry (a b : nat) (m : Q) (e : cpair * Q) : cpair * Q := if matches a b (fst e) then (fst e, m) else e.
Lemma update_requests_spec a b m : forall ps rs, length rs = length ps ->
  update_requests a b m ps rs = Ok (map snd (map (upd_entry a b m) (combine ps rs)), existsb (matches a b) ps).
Proof.
  induction ps as [|p ps IH]; intros [|r rs] H; cbn in H; try discriminate; [reflexivity|].
  injection H as H. cbn [update_requests combine map existsb].
  assert (EU : upd_entry a b m (p, r) = if matches a b p then (p, m) else (p, r)) by reflexivity. rewrite EU.
  destruct (matches a b p); rewrite (IH rs H); reflexivity.
Qed.
Definition upd_vld (a b : nat) (m : Q) (v : vld) : vld :=
  match v with
  | Solid x => Solid (of_entries x (map (upd_entry a b m) (entries x)))
  | NoJoint ps rs => NoJoint ps (map snd (map (upd_entry a b m) (combine ps rs)))
  | Other i => Other i
  end.
Lemma upd_fst a b m es : map fst (map (upd_entry a b m) es) = map fst es.
Proof. rewrite map_map. apply map_ext. intros [p r]. unfold upd_entry. cbn [fst]. destruct (matches a b p); reflexivity. Qed.
Lemma map_fst_combine {A B} (l : list A) (r : list B) : length r = length l -> map fst (combine l r) = l.
Proof. revert r; induction l as [|x l IH]; intros [|y r] H; cbn in *; try discriminate; auto. rewrite IH; auto. Qed.
Lemma between_loop_spec a b m : forall vs f, Forall wfv vs -> exists f',
  between_loop a b m vs f = Ok (map (upd_vld a b m) vs, f || f').
Proof.
  induction vs as [|v vs IH]; intros f Hw; [exists false; rewrite orb_false_r; reflexivity|].
  inversion Hw as [|? ? Hv Hr]; subst. destruct v as [x|ps rs|i]; cbn [between_loop].
  - rewrite update_requests_spec by exact Hv. cbn [bind]. set (g := existsb (matches a b) (prs x)).
    destruct (IH (f || g) Hr) as [f' E]. rewrite E. cbn [bind]. exists (g || f'). rewrite orb_assoc. cbn [map upd_vld].
    f_equal. f_equal. f_equal. f_equal. unfold of_entries, entries. rewrite upd_fst, map_fst_combine by exact Hv. reflexivity.
  - rewrite update_requests_spec by exact Hv. cbn [bind]. set (g := existsb (matches a b) ps).
    destruct (IH (f || g) Hr) as [f' E]. rewrite E. cbn [bind]. exists (g || f'). rewrite orb_assoc. reflexivity.
  - destruct (IH f Hr) as [f' E]. rewrite E. exists f'. reflexivity.
Qed.

(* ---- Initialize ---- *)
Definition key_ok (kb : (nat * nat) * bpc) : Prop :=
  wf (snd kb) /\ prs (snd kb) <> [] /\ fst (fst kb) <> snd (fst kb) /\
  ((ja (snd kb) = fst (fst kb) /\ jb (snd kb) = snd (fst kb)) \/ (ja (snd kb) = snd (fst kb) /\ jb (snd kb) = fst (fst kb))).
Lemma add_to_keys key p : forall ms k, In k (map fst (add_to key p ms)) <-> k = key \/ In k (map fst ms).
Proof.
  induction ms as [|[k0 b] ms IH]; intros k; cbn [add_to map].
  - cbn. split; [intros [<-|[]]; auto|intros [->|[]]; auto].
  - destruct ((fst k0 =? fst key) && (snd k0 =? snd key)) eqn:E.
    + cbn [map fst In]. apply andb_true_iff in E as [E1 E2]. apply Nat.eqb_eq in E1, E2.
      assert (k0 = key) by (destruct k0, key; cbn in *; congruence). subst k0. split; [auto|intros [->|H]; auto].
    + cbn [map fst In]. rewrite IH. tauto.
Qed.
Lemma add_to_nodup key p : forall ms, NoDup (map fst ms) -> NoDup (map fst (add_to key p ms)).
Proof.
  induction ms as [|[k0 b] ms IH]; intros H; cbn [add_to map]; [repeat constructor; intros []|].
  inversion H; subst. destruct ((fst k0 =? fst key) && (snd k0 =? snd key)) eqn:E; cbn [map fst].
  - constructor; assumption.
  - constructor; [|auto]. rewrite add_to_keys. intros [->|HC]; [|contradiction].
    rewrite !Nat.eqb_refl in E. discriminate.
Qed.
Lemma add_to_ok key p ms : fst key <> snd key -> Forall key_ok ms -> Forall key_ok (add_to key p ms).
Proof.
  intros Hk H. induction H as [|[k0 b] ms Hb Hms IH]; cbn [add_to].
  - constructor; [|constructor]. unfold key_ok, wf. cbn. repeat split; try discriminate; auto. destruct (snd key =? 0); auto.
  - destruct ((fst k0 =? fst key) && (snd k0 =? snd key)) eqn:E; constructor; auto.
    destruct Hb as [H1 [H2 [H3 H4]]]. unfold key_ok, wf in *. cbn [fst snd ja jb prs rqs] in *. split.
    + rewrite !app_length, H1. reflexivity.
    + split; [intros HC; apply app_eq_nil in HC as [_ HC]; discriminate|auto].
Qed.
(* (key, pair) entries *)
Definition holds (ms : list ((nat * nat) * bpc)) (k : nat * nat) (p : cpair) : Prop :=
  exists b, In (k, b) ms /\ In p (prs b).
Lemma add_to_holds key p : forall ms k q, holds (add_to key p ms) k q <-> (k = key /\ q = p) \/ holds ms k q.
Proof.
  unfold holds. induction ms as [|[k0 b] ms IH]; intros k q; cbn [add_to].
  - split.
    + intros [x [[E|[]] Hq]]. injection E as <- <-. cbn in Hq. destruct Hq as [<-|[]]. auto.
    + intros [[-> ->]|[x [[] _]]]. eexists. split; [left; reflexivity|left; reflexivity].
  - destruct ((fst k0 =? fst key) && (snd k0 =? snd key)) eqn:E.
    + apply andb_true_iff in E as [E1 E2]. apply Nat.eqb_eq in E1, E2.
      assert (k0 = key) by (destruct k0, key; cbn in *; congruence). subst k0. split.
      * intros [x [[Ex|Hx] Hq]].
        -- injection Ex as <- <-. cbn [prs] in Hq. rewrite in_app_iff in Hq. destruct Hq as [Hq|[<-|[]]]; [|auto].
           right. exists b. split; [left; reflexivity|exact Hq].
        -- right. exists x. split; [right; exact Hx|exact Hq].
      * intros [[-> ->]|[x [[Ex|Hx] Hq]]].
        -- eexists. split; [left; reflexivity|]. cbn [prs]. rewrite in_app_iff. right; left; reflexivity.
        -- injection Ex as <- <-. eexists. split; [left; reflexivity|]. cbn [prs]. rewrite in_app_iff. auto.
        -- exists x. split; [right; exact Hx|exact Hq].
    + split.
      * intros [x [[Ex|Hx] Hq]].
        -- right. exists x. split; [left; exact Ex|exact Hq].
        -- destruct (proj1 (IH k q) (ex_intro _ x (conj Hx Hq))) as [H|[y [Hy1 Hy2]]]; [auto|].
           right. exists y. split; [right; exact Hy1|exact Hy2].
      * intros [H|[x [[Ex|Hx] Hq]]].
        -- destruct (proj2 (IH k q) (or_introl H)) as [y [Hy1 Hy2]]. exists y. split; [right; exact Hy1|exact Hy2].
        -- exists x. split; [left; exact Ex|exact Hq].
        -- destruct (proj2 (IH k q) (or_intror (ex_intro _ x (conj Hx Hq)))) as [y [Hy1 Hy2]]. exists y. split; [right; exact Hy1|exact Hy2].
Qed.
Lemma init_loop_spec : forall gs ms, NoDup (map fst ms) -> Forall key_ok ms ->
  NoDup (map fst (init_loop gs ms)) /\ Forall key_ok (init_loop gs ms) /\
  forall k q, holds (init_loop gs ms) k q <->
    holds ms k q \/ exists g, In g gs /\ g_active g = true /\ j_left g <> j_right g /\ k = (j_left g, j_right g) /\
      q = {| c_left := g_left g; c_right := g_right g |}.
Proof.
  induction gs as [|g gs IH]; intros ms Hn Hk; cbn [init_loop].
  - split; [exact Hn|split; [exact Hk|]]. intros k q. split; [auto|intros [H|[g [[] _]]]; exact H].
  - destruct (g_active g) eqn:EA; cbn [negb].
    + destruct (Nat.eqb_spec (j_left g) (j_right g)) as [EJ|EJ].
      * destruct (IH ms Hn Hk) as [H1 [H2 H3]]. split; [exact H1|split; [exact H2|]]. intros k q. rewrite H3. split.
        -- intros [H|[x [Hx H]]]; [auto|]. right; exists x; split; [right; exact Hx|exact H].
        -- intros [H|[x [[<-|Hx] [Ha [Hj H]]]]]; [auto|contradiction|]. right; exists x; auto.
      * destruct (IH _ (add_to_nodup (j_left g, j_right g) {| c_left := g_left g; c_right := g_right g |} ms Hn)
                        (add_to_ok (j_left g, j_right g) {| c_left := g_left g; c_right := g_right g |} ms EJ Hk)) as [H1 [H2 H3]].
        split; [exact H1|split; [exact H2|]]. intros k q. rewrite H3, add_to_holds. split.
        -- intros [[[-> ->]|H]|[x [Hx H]]]; [right; exists g|auto|right; exists x]; repeat split; auto; try (left; reflexivity); try (right; exact Hx); apply H.
        -- intros [H|[x [[<-|Hx] [Ha [Hj [Hk' Hq]]]]]]; [auto|left; left; auto|]. right; exists x; auto.
    + destruct (IH ms Hn Hk) as [H1 [H2 H3]]. split; [exact H1|split; [exact H2|]]. intros k q. rewrite H3. split.
      * intros [H|[x [Hx H]]]; [auto|]. right; exists x; split; [right; exact Hx|exact H].
      * intros [H|[x [[<-|Hx] [Ha H]]]]; [auto|congruence|]. right; exists x; auto.
Qed.
