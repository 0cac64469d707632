(* Path vectors: locating a parameter, evaluation, appending. *)
From Verif Require Import Base QcTac PathModel PathSpec.
Open Scope Qc_scope.

Section PathProofs.
Variable conf : Type.
Variable interp : conf -> conf -> Qc -> conf.
Notation path := (path conf).
Notation eval := (eval conf interp).
Notation compute := (compute conf interp).
Notation config_at := (config_at conf interp).

Lemma path_ind' (P : path -> Prop) :
  (forall h a b, P (Straight h a b)) -> (forall h ks, P (Interp h ks)) ->
  (forall h f, P (Gen h f)) -> (forall h o rv, P o -> P (Extr h o rv)) ->
  (forall h subs, Forall P subs -> P (PV h subs)) -> forall p, P p.
Proof.
  intros H1 H2 H3 H4 H5.
  fix IH 1. intros [h a b|h ks|h f|h o rv|h subs].
  - apply H1.
  - apply H2.
  - apply H3.
  - apply H4, IH.
  - apply H5. induction subs as [|x l IHl]; constructor; [apply IH|exact IHl].
Qed.

Lemma fold_and_Forall (P : path -> Prop) l : fold_right and True (map P l) <-> Forall P l.
Proof.
  induction l as [|x l IH]; cbn [map fold_right]; split; intros H; auto.
  - constructor; [apply H|apply IH, H].
  - inversion H; subst. split; [assumption|apply IH; assumption].
Qed.

Fixpoint isum (rs : list itv) : Qc := match rs with [] => 0 | r :: l => ilen r + isum l end.

Lemma isum_total (l : list path) : isum (map timeRange l) = total l.
Proof. induction l as [|x l IH]; cbn [map isum total]; [reflexivity|rewrite IH; reflexivity]. Qed.

Lemma isum_nonneg rs : Forall (fun r => 0 <= ilen r) rs -> 0 <= isum rs.
Proof.
  induction 1 as [|r l Hr Hl IH]; cbn [isum]; [apply Qcle_refl|qc].
Qed.

Lemma rank_loop_at pre r post t i :
  Forall (fun r => 0 <= ilen r) pre -> (pre = [] \/ isum pre < t) -> t <= isum pre + ilen r ->
  rank_loop (pre ++ r :: post) t i = Some ((i + length pre)%nat, t - isum pre, r).
Proof.
  revert t i. induction pre as [|x pre IH]; intros t i Hn Hp Ht; cbn [isum] in *.
  - replace (t - 0) with t by qc. cbn [app length]. rewrite Nat.add_0_r.
    cbn [rank_loop]. destruct post; [reflexivity|].
    qcaselt (ilen r) t; [exfalso; apply (Qclt_not_le _ _ Hc); qc|reflexivity].
  - inversion Hn; subst. destruct Hp as [Hp|Hp]; [discriminate|].
    pose proof (isum_nonneg _ H2) as Hs.
    cbn [app rank_loop length]. 
    destruct (pre ++ r :: post) as [|y l] eqn:E; [destruct pre; discriminate|].
    qcaselt (ilen x) t.
    + rewrite IH; [|assumption| |qc].
      * rewrite Nat.add_succ_r. do 3 f_equal. qc.
      * right. qc.
    + exfalso. apply (Qclt_not_le _ _ Hp). qc.
Qed.

Lemma rank_at pre r post t :
  Forall (fun r => 0 <= ilen r) pre -> (pre = [] \/ isum pre < t) -> t <= isum pre + ilen r ->
  rank_at_param (pre ++ r :: post) t = Ok (length pre, fst r + (t - isum pre)).
Proof.
  intros Hn Hp Ht. unfold rank_at_param. rewrite (rank_loop_at pre r post t 0%nat Hn Hp Ht).
  qcaselt (ilen r) (t - isum pre); [exfalso; apply (Qclt_not_le _ _ Hc); qc|].
  f_equal. f_equal. qc.
Qed.

(* t falls on x *)
Definition locate (l : list path) (t : Qc) (pre : list path) (x : path) (post : list path) : Prop :=
  l = pre ++ x :: post /\ (pre = [] \/ total pre < t) /\ t <= total pre + plength x.

Lemma ranged_len (p : path) : ranged p -> 0 <= plength p.
Proof. unfold ranged, start, stop, plength, ilen. qc. Qed.

Lemma total_nonneg (l : list path) : Forall ranged l -> 0 <= total l.
Proof.
  induction 1 as [|x l Hx Hl IH]; cbn [total]; [apply Qcle_refl|]. apply ranged_len in Hx. qc.
Qed.
Lemma total_app (l m : list path) : total (l ++ m) = total l + total m.
Proof. induction l as [|x l IH]; cbn [app total]; [qc|rewrite IH; qc]. Qed.

Lemma locate_le l t pre x post : locate l t pre x post -> Forall ranged l -> 0 <= t ->
  total pre <= t.
Proof.
  intros (E & H & _) Hr Ht. destruct H as [->|H]; [exact Ht|apply Qclt_le_weak; exact H].
Qed.

Lemma locate_exists (l : list path) t : l <> [] -> 0 <= t -> t <= total l ->
  exists pre x post, locate l t pre x post.
Proof.
  revert t. induction l as [|x l IH]; intros t Hne Ht Htl; [contradiction|].
  cbn [total] in Htl.
  qcase t (plength x).
  - exists [], x, l. split; [reflexivity|]. split; [left; reflexivity|cbn [total]; qc].
  - destruct l as [|y l'] eqn:El.
    + cbn [total] in Htl. exfalso. apply (Qclt_not_le _ _ Hc). qc.
    + rewrite <- El in *.
      destruct (IH (t - plength x)) as (pre & z & post & E & Hp & Hz).
      * rewrite El; discriminate.
      * qc.
      * qc.
      * exists (x :: pre), z, post. split; [cbn [app]; rewrite <- E; reflexivity|].
        split; [right|]; cbn [total].
        -- destruct Hp as [->|Hp]; cbn [total]; qc.
        -- qc.
Qed.

Lemma Forall_ilen (l : list path) : Forall ranged l ->
  Forall (fun r => 0 <= ilen r) (map timeRange l).
Proof. induction 1 as [|x l Hx Hl IH]; cbn [map]; constructor; [apply ranged_len; exact Hx|exact IH]. Qed.

Lemma Forall_pre {A} (P : A -> Prop) l pre x post : Forall P l -> l = pre ++ x :: post ->
  Forall P pre /\ P x /\ Forall P post.
Proof.
  intros H ->. apply Forall_app in H. destruct H as [H1 H2]. inversion H2; subst. auto.
Qed.

Lemma rank_at_locate l t pre x post : Forall ranged l -> locate l t pre x post ->
  rank_at_param (map timeRange l) t = Ok (length pre, start x + (t - total pre)).
Proof.
  intros Hr (E & Hp & Hx). destruct (Forall_pre _ _ _ _ _ Hr E) as (Hr1 & _ & _). subst l.
  rewrite map_app. cbn [map]. rewrite rank_at.
  - rewrite map_length, isum_total. reflexivity.
  - apply Forall_ilen; assumption.
  - rewrite isum_total. destruct Hp as [->|Hp]; [left; reflexivity|right; exact Hp].
  - rewrite isum_total. exact Hx.
Qed.

Lemma compute_PV h subs s :
  compute (PV h subs) s =
  bind (rank_at_param (map timeRange subs) s) (fun il =>
    match nth_error (map eval subs) (fst il) with
    | Some e => e (snd il)
    | None => UB
    end).
Proof. reflexivity. Qed.

Lemma nth_error_mid {A} (pre : list A) x post : nth_error (pre ++ x :: post) (length pre) = Some x.
Proof. induction pre as [|y pre IH]; [reflexivity|exact IH]. Qed.

Lemma compute_locate h l t pre x post : Forall ranged l -> locate l t pre x post ->
  compute (PV h l) t = eval x (start x + (t - total pre)).
Proof.
  intros Hr Hl. rewrite compute_PV. rewrite (rank_at_locate _ _ _ _ _ Hr Hl). cbn [bind fst snd].
  destruct Hl as (-> & _). rewrite map_app. cbn [map].
  rewrite <- (map_length eval pre). rewrite nth_error_mid. reflexivity.
Qed.

Lemma eval_plain (p : path) t : tp (hd_of p) = None -> cs (hd_of p) = None ->
  eval p t = compute p t.
Proof.
  intros Ht Hc. unfold PathModel.eval, PathModel.config_at, param_at. rewrite Ht.
  unfold apply_cs. rewrite Hc. destruct (compute p t) as [[q|]| | |]; reflexivity.
Qed.

Lemma eval_no_tp (p : path) t : tp (hd_of p) = None ->
  eval p t = apply_cs (hd_of p) t (compute p t).
Proof. intros Ht. unfold PathModel.eval, PathModel.config_at, param_at. rewrite Ht. reflexivity. Qed.

Lemma eval_locate h l t pre x post : bare h -> Forall ranged l -> locate l t pre x post ->
  eval (PV h l) t = eval x (start x + (t - total pre)).
Proof.
  intros (H1 & H2 & H3) Hr Hl. rewrite eval_plain by assumption.
  exact (compute_locate h l t pre x post Hr Hl).
Qed.

(* result of successive appendPath *)
Lemma fold_append (h : hdr conf) (subs l : list path) :
  tp h = None -> pr h = tr h ->
  fold_left append l (PV h subs) =
  PV (mkH (fst (tr h), snd (tr h) + total l) (fst (tr h), snd (tr h) + total l) (cs h) None)
     (subs ++ l).
Proof.
  revert h subs. induction l as [|x l IH]; intros h subs Ht Hp; cbn [fold_left total].
  - rewrite app_nil_r. replace (snd (tr h) + 0) with (snd (tr h)) by qc.
    rewrite <- surjective_pairing. destruct h as [a b c d]; cbn in *; subst. reflexivity.
  - cbn [append]. rewrite IH.
    + unfold set_tr. rewrite Ht. cbn [tr pr cs tp fst snd]. rewrite <- app_assoc. cbn [app].
      f_equal. f_equal; f_equal; qc.
    + unfold set_tr. rewrite Ht. reflexivity.
    + unfold set_tr. rewrite Ht. reflexivity.
Qed.

Lemma fold_append_create (c : option (constr conf)) (l : list path) :
  fold_left append l (pv_create c) = PV (mk_hdr (0, total l) c) l.
Proof.
  unfold pv_create. rewrite fold_append by reflexivity. cbn [mk_hdr tr cs fst snd app].
  unfold mk_hdr. do 3 f_equal; qc.
Qed.

Lemma plays_in_order_PV h l : bare h -> tr h = (0, total l) -> l <> [] -> Forall ranged l ->
  plays_in_order conf interp (PV h l) l.
Proof.
  intros Hb Htr Hne Hr. split.
  - unfold plength, timeRange, ilen. cbn [hd_of]. rewrite Htr. cbn [fst snd]. qc.
  - intros t H0 H1. destruct (locate_exists l t Hne H0 H1) as (pre & x & post & Hl).
    exists pre, x, post. pose proof (locate_le _ _ _ _ _ Hl Hr H0) as Hle.
    pose proof Hl as (E & Hp & Hx).
    split; [exact E|]. split; [exact Hle|]. split; [exact Hx|].
    split; [exact Hp|].
    unfold start at 1, timeRange. cbn [hd_of]. rewrite Htr. cbn [fst].
    replace (0 + t) with t by qc. exact (eval_locate h l t pre x post Hb Hr Hl).
Qed.

End PathProofs.
