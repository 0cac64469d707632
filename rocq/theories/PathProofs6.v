(* Concatenation and flattening of path vectors. *)
From Verif Require Import Base QcTac PathModel PathSpec PathProofs PathProofs3 PathProofs4.
Open Scope Qc_scope.

Section PathProofs6.
Variable conf : Type.
Variable interp : conf -> conf -> Qc -> conf.
Notation path := (path conf).
Notation eval := (eval conf interp).
Notation compute := (compute conf interp).
Notation plays_in_order := (plays_in_order conf interp).
Notation same_trajectory := (same_trajectory conf interp).

(* generic fold over the ranks *)
Lemma fold_res_ranks (h : hdr conf) (subs : list path) (g : path -> path -> res path) acc :
  (forall i, path_at_rank h subs i = match nth_error subs i with Some x => Ok x | None => UB end) ->
  fold_res (fun acc i => bind (path_at_rank h subs i) (fun x => g acc x)) (seq 0 (length subs)) acc
  = fold_left (fun r x => bind r (fun a => g a x)) subs (Ok acc).
Proof.
  intros Hrk.
  assert (G : forall pre post a, subs = pre ++ post ->
    fold_res (fun acc i => bind (path_at_rank h subs i) (fun x => g acc x)) (seq (length pre) (length post)) a
    = fold_left (fun r x => bind r (fun b => g b x)) post (Ok a)).
  { intros pre post. revert pre. induction post as [|x post IH]; intros pre a E; [reflexivity|].
    cbn [length seq fold_res fold_left bind]. rewrite Hrk, E, nth_error_mid. cbn [bind].
    destruct (g a x) as [b| | |]; cbn [bind].
    - specialize (IH (pre ++ [x]) b). rewrite app_length in IH. cbn [length] in IH.
      rewrite Nat.add_1_r in IH. rewrite E in IH. apply IH. rewrite <- app_assoc. reflexivity.
    - clear. induction post; [reflexivity|assumption].
    - clear. induction post; [reflexivity|assumption].
    - clear. induction post; [reflexivity|assumption]. }
  exact (G [] subs acc eq_refl).
Qed.

Lemma path_at_rank_free (h : hdr conf) subs i : cs h = None ->
  path_at_rank h subs i = match nth_error subs i with Some x => Ok x | None => UB end.
Proof. intros H. unfold path_at_rank. rewrite H. reflexivity. Qed.

Lemma fold_Ok_append (l : list path) acc :
  fold_left (fun r x => bind r (fun a => Ok (append a x))) l (Ok acc) = Ok (fold_left append l acc).
Proof. revert acc. induction l as [|x l IH]; intros acc; [reflexivity|]. cbn [fold_left bind]. apply IH. Qed.

Lemma concatenate_free (pv : path) (h : hdr conf) (subs : list path) : cs h = None ->
  concatenate pv (PV h subs) = Ok (fold_left append subs pv).
Proof.
  intros H. cbn [concatenate].
  rewrite (fold_res_ranks h subs (fun acc x => Ok (append acc x))) by (intros; apply path_at_rank_free; exact H).
  apply fold_Ok_append.
Qed.

(* ---- constrained second operand ---- *)
Definition copied (c : constr conf) (x x' : path) : Prop :=
  timeRange x' = timeRange x /\ forall t, eval x' t = project c (eval x t).

Lemma compute_with_hd (p : path) h' s : pr h' = pr (hd_of p) -> compute (with_hd p h') s = compute p s.
Proof.
  intros E. destruct p; cbn [with_hd PathModel.compute hd_of] in *.
  - unfold straight_compute. rewrite E. reflexivity.
  - unfold interp_compute. rewrite E. reflexivity.
  - reflexivity.
  - unfold s_in_original. rewrite E. reflexivity.
  - reflexivity.
Qed.

Lemma with_hd_hd (p : path) h' : hd_of (with_hd p h') = h'.
Proof. destruct p; reflexivity. Qed.

Lemma copy_cs_copied c (x x' : path) : steady c -> cs (hd_of x) = None -> copy_cs c x = Ok x' ->
  copied c x x'.
Proof.
  intros Hst Hn H.
  assert (E : x' = with_hd x (mkH (tr (hd_of x)) (pr (hd_of x)) (Some c) (tp (hd_of x)))).
  { destruct x as [h a b|h ks|h f|h o rv|h subs]; cbn [copy_cs hd_of with_hd] in *.
    - match type of H with (if ?b then _ else _) = _ => destruct b; [injection H as <-; reflexivity|discriminate] end.
    - destruct ks as [|k ks]; [discriminate|]. destruct (klast (k :: ks)); [|discriminate].
      match type of H with (if ?b then _ else _) = _ => destruct b; [injection H as <-; reflexivity|discriminate] end.
    - injection H as <-; reflexivity.
    - injection H as <-; reflexivity.
    - injection H as <-; reflexivity. }
  subst x'. split.
  - unfold timeRange. rewrite with_hd_hd. reflexivity.
  - intros t. unfold PathModel.eval, config_at. rewrite with_hd_hd.
    rewrite compute_with_hd by reflexivity. unfold param_at. cbn [tp].
    unfold apply_cs. cbn [cs]. rewrite Hn. unfold project.
    destruct (compute x _) as [[q|]| | |]; try reflexivity. rewrite (Hst _ 0). reflexivity.
Qed.

Lemma concatenate_constrained c (pv : path) (h : hdr conf) (subs : list path) r :
  cs h = Some c -> steady c -> Forall (fun x => cs (hd_of x) = None) subs ->
  concatenate pv (PV h subs) = Ok r ->
  exists subs', Forall2 (copied c) subs subs' /\ r = fold_left append subs' pv.
Proof.
  intros Hc Hst Hf H. cbn [concatenate] in H.
  assert (G : forall post pre a r, subs = pre ++ post ->
    fold_res (fun acc i => bind (path_at_rank h subs i) (fun x => Ok (append acc x)))
      (seq (length pre) (length post)) a = Ok r ->
    exists subs', Forall2 (copied c) post subs' /\ r = fold_left append subs' a).
  { induction post as [|x post IH]; intros pre a r' E Hr.
    - cbn in Hr. injection Hr as <-. exists []. split; [constructor|reflexivity].
    - cbn [length seq fold_res] in Hr. unfold path_at_rank at 1 in Hr.
      rewrite E in Hr at 1. rewrite nth_error_mid, Hc in Hr.
      assert (Hx : cs (hd_of x) = None).
      { rewrite Forall_forall in Hf. apply Hf. rewrite E. apply in_elt. }
      rewrite Hx in Hr. destruct (copy_cs c x) as [x'| | |] eqn:Ex; try discriminate.
      cbn [bind] in Hr.
      destruct (IH (pre ++ [x]) (append a x') r') as (s' & F & Er).
      + rewrite E, <- app_assoc. reflexivity.
      + rewrite app_length. cbn [length]. rewrite Nat.add_1_r. exact Hr.
      + exists (x' :: s'). split; [|exact Er]. constructor; [|exact F].
        exact (copy_cs_copied c x x' Hst Hx Ex). }
  exact (G subs [] pv r eq_refl H).
Qed.

(* ---- evaluation of a concatenation ---- *)
Lemma copied_total c l l' : Forall2 (copied c) l l' -> total l' = total l.
Proof.
  induction 1 as [|x x' l l' (H & _) _ IH]; [reflexivity|]. cbn [total]. unfold plength at 1. rewrite H, IH. reflexivity.
Qed.
Lemma copied_ranged c l l' : Forall2 (copied c) l l' -> Forall ranged l -> Forall ranged l'.
Proof.
  induction 1 as [|x x' l l' (H & _) _ IH]; intros Hr; constructor; inversion Hr; subst; auto.
  unfold ranged, start, stop in *. rewrite H. assumption.
Qed.

Definition vec (p : path) (l : list path) : Prop :=
  exists h, p = PV h l /\ tp h = None /\ pr h = tr h /\ tr h = (0, total l) /\ l <> [] /\ Forall ranged l.

Lemma eval_first h (l m : list path) t : bare h -> Forall ranged l -> Forall ranged m -> l <> [] ->
  0 <= t -> t <= total l -> forall h', bare h' -> eval (PV h (l ++ m)) t = eval (PV h' l) t.
Proof.
  intros Hb Hl Hm Hne H0 H1 h' Hb'.
  destruct (locate_exists conf l t Hne H0 H1) as (pre & x & post & L).
  rewrite (eval_locate conf interp h' l t pre x post Hb' Hl L).
  apply (eval_locate conf interp h (l ++ m) t pre x (post ++ m)); [exact Hb|apply Forall_app; auto|].
  destruct L as (E & A & B). split; [|split; assumption].
  rewrite E, <- app_assoc. reflexivity.
Qed.

Lemma eval_second h (l m : list path) t : bare h -> Forall ranged l -> Forall ranged m -> m <> [] ->
  0 < t -> t <= total m -> exists pre x post, locate conf m t pre x post /\
    eval (PV h (l ++ m)) (total l + t) = eval x (start x + (t - total pre)).
Proof.
  intros Hb Hl Hm Hne H0 H1. assert (H0' : 0 <= t) by qc.
  destruct (locate_exists conf m t Hne H0' H1) as (pre & x & post & L).
  exists pre, x, post. split; [exact L|].
  rewrite (eval_locate conf interp h (l ++ m) (total l + t) (l ++ pre) x post Hb).
  - f_equal. rewrite total_app. qc.
  - apply Forall_app; auto.
  - destruct L as (E & A & B). split; [rewrite E, app_assoc; reflexivity|].
    rewrite total_app. pose proof (total_nonneg conf l Hl). split; [|qc].
    right. destruct A as [->|A]; [cbn [total]; qc|qc].
Qed.

(* the sub-path on which a time falls, in the copied list *)
Lemma locate_copied c l l' t pre' x' post' : Forall2 (copied c) l l' ->
  locate conf l' t pre' x' post' ->
  exists pre x post, locate conf l t pre x post /\ total pre = total pre' /\ copied c x x'.
Proof.
  intros HF (E & A & B). subst l'. apply Forall2_app_inv_r in HF.
  destruct HF as (pre & r & F1 & F2 & ->). inversion F2 as [|x ? post ? Hx Hp]; subst.
  exists pre, x, post. pose proof (copied_total _ _ _ F1) as Ht.
  split; [|split; [symmetry; exact Ht|exact Hx]].
  split; [reflexivity|]. rewrite Ht in A, B. split.
  - destruct A as [->|A]; [left; inversion F1; reflexivity|right; exact A].
  - destruct Hx as (Hx & _). unfold plength in *. rewrite <- Hx. exact B.
Qed.

Lemma eval_PV_constrained c h l t pre x post : steady c -> tp h = None -> cs h = Some c ->
  Forall ranged l -> locate conf l t pre x post ->
  eval (PV h l) t = project c (eval x (start x + (t - total pre))).
Proof.
  intros Hst H1 H2 Hr Hl. rewrite eval_no_tp by exact H1.
  rewrite (compute_locate conf interp h l t pre x post Hr Hl).
  unfold apply_cs. cbn [hd_of]. rewrite H2. unfold project.
  destruct (eval x _) as [[q|]| | |]; try reflexivity. rewrite (Hst _ 0). reflexivity.
Qed.

(* ---- flattening ---- *)
Lemma flatten_ok d : forall (p acc : path), nested p -> is_vector p -> (nesting p <= d)%nat ->
  flatten d p acc = Ok (fold_left append (elementary p) acc).
Proof.
  induction d as [|d IH]; intros p acc Hn Hv Hd.
  - destruct p; try destruct Hv. cbn [nesting] in Hd. lia.
  - destruct p as [| | | |h subs]; try destruct Hv. cbn [flatten].
    destruct Hn as [_ [(_ & Hcs & _) [_ [_ Hs]]]]. apply fold_and_Forall in Hs.
    pose proof (fold_res_ranks h subs
      (fun acc x => match x with PV _ _ => flatten d x acc | _ => Ok (append acc x) end) acc) as FR.
    rewrite FR by (intros; apply path_at_rank_free; exact Hcs). clear FR.
    cbn [elementary].
    assert (Hd' : Forall (fun x => (nesting x <= d)%nat) subs).
    { cbn [nesting] in Hd. assert (Hm : (fold_right Nat.max 0 (map nesting subs) <= d)%nat) by lia.
      clear - Hm. induction subs as [|x l IHl]; constructor; cbn [map fold_right] in Hm; [lia|apply IHl; lia]. }
    clear Hd. revert acc. induction subs as [|x l IHl]; intros acc; [reflexivity|].
    inversion Hs as [|? ? Hx Hl]; subst. inversion Hd' as [|? ? Dx Dl]; subst.
    cbn [fold_left bind map concat]. rewrite fold_left_app.
    destruct x as [h1 a b|h1 ks|h1 f|h1 o rv|h1 ss].
    1-4: cbn [elementary fold_left]; apply (IHl Hl Dl).
    rewrite (IH (PV h1 ss) acc Hx I Dx). apply (IHl Hl Dl).
Qed.

Lemma nested_ranged (p : path) : nested p -> ranged p.
Proof. destruct p; intros [H _]; exact H. Qed.

Lemma elementary_total (p : path) : nested p -> total (elementary p) = plength p.
Proof.
  induction p as [h q0 q1|h ks|h f|h o rv IHo|h subs IH] using path_ind'; intros Hn;
    try (cbn [elementary total]; qc).
  destruct Hn as [_ [_ [_ [Htr Hs]]]]. apply fold_and_Forall in Hs.
  unfold plength, timeRange. cbn [hd_of]. rewrite Htr. unfold ilen. cbn [fst snd elementary].
  assert (E : total (concat (map elementary subs)) = total subs); [|rewrite E; qc].
  clear Htr. induction subs as [|x l IHl]; [reflexivity|].
  inversion IH; subst. inversion Hs; subst. cbn [map concat total]. rewrite total_app, H1, IHl; auto.
Qed.

Lemma elementary_nonempty (p : path) : nested p -> elementary p <> [].
Proof.
  induction p as [h q0 q1|h ks|h f|h o rv IHo|h subs IH] using path_ind'; intros Hn; try discriminate.
  destruct Hn as [_ [_ [Hne [_ Hs]]]]. apply fold_and_Forall in Hs.
  destruct subs as [|x l]; [contradiction|]. inversion IH; subst. inversion Hs; subst.
  cbn [elementary map concat]. intros E. apply app_eq_nil in E. destruct E as [E _]. exact (H1 H3 E).
Qed.

Lemma elementary_ranged (p : path) : nested p -> Forall ranged (elementary p).
Proof.
  induction p as [h q0 q1|h ks|h f|h o rv IHo|h subs IH] using path_ind'; intros Hn;
    try (constructor; [apply Hn|constructor]).
  destruct Hn as [_ [_ [_ [_ Hs]]]]. apply fold_and_Forall in Hs. cbn [elementary].
  clear - IH Hs. induction subs as [|x l IHl]; [constructor|].
  inversion IH; subst. inversion Hs; subst. cbn [map concat]. apply Forall_app. split; auto.
Qed.

Lemma elementary_locate (p : path) : nested p -> forall t, 0 <= t -> t <= plength p ->
  exists pre x post, locate conf (elementary p) t pre x post /\
    eval p (start p + t) = eval x (start x + (t - total pre)).
Proof.
  induction p as [h q0 q1|h ks|h f|h o rv IHo|h subs IH] using path_ind'; intros Hn t H0 H1;
    try (eexists [], _, []; split;
         [split; [reflexivity|split; [left; reflexivity|cbn [total]; qc]]
         |f_equal; cbn [total]; qc]).
  pose proof Hn as [Hr [Hb [Hne [Htr Hs]]]]. apply fold_and_Forall in Hs.
  assert (Hrs : Forall ranged subs)
    by (eapply Forall_impl; [|exact Hs]; intros q; apply nested_ranged).
  unfold plength, timeRange in H1. cbn [hd_of] in H1. rewrite Htr in H1. unfold ilen in H1. cbn [fst snd] in H1.
  assert (H1' : t <= total subs) by qc.
  destruct (locate_exists conf subs t Hne H0 H1') as (pre & x & post & L).
  pose proof (locate_le _ _ _ _ _ _ L Hrs H0) as Hle.
  assert (Est : start (PV h subs) = 0) by (unfold start, timeRange; cbn [hd_of]; rewrite Htr; reflexivity).
  rewrite Est. replace (0 + t) with t by qc.
  rewrite (eval_locate conf interp h subs t pre x post Hb Hrs L).
  destruct L as (E & A & B).
  assert (Hx : In x subs) by (rewrite E; apply in_elt).
  rewrite Forall_forall in IH. pose proof Hs as Hs'. rewrite Forall_forall in Hs.
  destruct (IH x Hx (Hs x Hx) (t - total pre)) as (p2 & y & q2 & (E2 & A2 & B2) & Ev); [qc|qc|].
  assert (Hpre : Forall nested pre /\ Forall nested post).
  { rewrite E in Hs'. apply Forall_app in Hs'. destruct Hs' as [Q1 Q2]. inversion Q2; subst. auto. }
  assert (Htot : total (concat (map elementary pre)) = total pre).
  { destruct Hpre as [Hpre _]. clear - Hpre. induction Hpre as [|z l Hz _ IHl]; [reflexivity|].
    cbn [map concat total]. rewrite total_app, IHl, elementary_total by exact Hz. reflexivity. }
  exists (concat (map elementary pre) ++ p2), y, (q2 ++ concat (map elementary post)).
  split; [split; [|split]|].
  - cbn [elementary]. rewrite E, map_app, concat_app. cbn [map concat]. rewrite E2.
    rewrite <- !app_assoc. reflexivity.
  - rewrite total_app, Htot. destruct A2 as [->|A2].
    + destruct A as [->|A]; [left; reflexivity|right; cbn [total]; qc].
    + right. qc.
  - rewrite total_app, Htot. qc.
  - rewrite Ev. f_equal. rewrite total_app, Htot. qc.
Qed.

Lemma flatten_same d (p : path) : nested p -> is_vector p -> (nesting p <= d)%nat ->
  exists r, flatten d p (pv_create None) = Ok r /\
    r = PV (mk_hdr (0, total (elementary p)) None) (elementary p) /\
    same_trajectory p r.
Proof.
  intros Hn Hv Hd. rewrite (flatten_ok d p _ Hn Hv Hd), fold_append_create.
  eexists; split; [reflexivity|]. split; [reflexivity|].
  pose proof (elementary_total p Hn) as Ht. split.
  - unfold plength at 1, timeRange, ilen. cbn [hd_of mk_hdr tr fst snd]. rewrite Ht. qc.
  - intros t H0 H1. destruct (elementary_locate p Hn t H0 H1) as (pre & x & post & L & E).
    rewrite E. unfold start at 1, timeRange. cbn [hd_of mk_hdr tr fst].
    replace (0 + t) with t by qc.
    apply (eval_locate conf interp _ _ t pre x post); [apply bare_mk|apply elementary_ranged; exact Hn|exact L].
Qed.

End PathProofs6.
