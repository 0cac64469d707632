(* Proofs about the loop over path vectors and the progressive projector. *)
From Coq Require Import Lia QArith.Qround.
From Verif Require Import Base QcTac VecSpec VecProofs PathProjModel PathProjSpec PathProjProofs.
Open Scope Qc_scope.

Lemma last_cons {A} (l : list A) : forall x d, last (x :: l) d = last l x.
Proof.
  induction l as [|a l IH]; intros x d; [reflexivity|]. change (last (a :: l) d = last (a :: l) x). rewrite !IH. reflexivity.
Qed.
(* ---------------------------------------------------- path vectors *)
Section Tree.
Variable X : Type.
Variable Q : tree X -> Prop.
Hypothesis QL : forall x, Q (L x).
Hypothesis QV : forall l, Forall Q l -> Q (V l).
Fixpoint tree_rec' (t : tree X) : Q t :=
  match t with
  | L x => QL x
  | V l => QV l ((fix go l := match l return Forall Q l with [] => Forall_nil _ | y :: l' => Forall_cons y (tree_rec' y) (go l') end) l)
  end.
End Tree.

Section Vector.
Context {C P : Type}.
Variable init fin : P -> C.
Variable len : P -> Qc.
Variable leaf : P -> res (bool * option (tree (out C P))).
Notation outT := (out C P).
Notation papply := (papply C P len leaf).
Notation tlen := (tlen C P len).
Notation ochained := (chained (oinit C P init) (ofin C P init fin)).

Notation vloop := (vloop C P len papply).
Lemma papply_V l prev : papply (V l) prev = vloop l 0 None [].
Proof. reflexivity. Qed.

(* the previous content of the output argument does not matter if it is
   written *)
Lemma papply_prev t prev b r : papply t None = Ok (b, Some r) -> papply t prev = Ok (b, Some r).
Proof.
  destruct t as [p|l]; [|rewrite !papply_V; auto]. cbn [PathProjModel.papply].
  destruct (leaf p) as [[b' o]| | |]; cbn [bind]; try discriminate. destruct o; [auto|discriminate].
Qed.
Lemma papply_none t prev b : papply t None = Ok (b, None) -> papply t prev = Ok (b, prev).
Proof.
  destruct t as [p|l]; cbn [PathProjModel.papply].
  - destruct (leaf p) as [[b' o]| | |]; cbn [bind]; try discriminate. destruct o; [discriminate|].
    intros E. injection E as <-. reflexivity.
  - intros E. exfalso. change (papply (V l) None = Ok (b, None)) in E. rewrite papply_V in E. revert E.
    generalize 0%nat as i. generalize (@nil (tree outT)) as acc. generalize (@None (tree outT)) at 1 as part.
    induction l as [|x l IH]; intros part acc i; cbn [PathProjModel.vloop]; [discriminate|].
    destruct (papply x part) as [[b' [r|]]| | |]; cbn [bind]; try discriminate; destruct b'; try discriminate. apply IH.
Qed.
(* whatever was in the output argument, the outcome of a call is that of the
   call with a null pointer, or leaves it as it was *)
Lemma papply_inv t prev b o : papply t prev = Ok (b, o) ->
  (exists r, papply t None = Ok (b, Some r) /\ o = Some r) \/ (papply t None = Ok (b, None) /\ o = prev).
Proof.
  destruct t as [p|l].
  - cbn [PathProjModel.papply]. destruct (leaf p) as [[b' [r|]]| | |]; cbn [bind]; try discriminate;
      intros E; injection E as <- <-; eauto.
  - intros E. rewrite papply_V in E. rewrite <- (papply_V l None) in E. destruct o as [r|]; [eauto|].
    right. split; [exact E|]. exfalso. pose proof (papply_none _ (Some (V [])) _ E) as K. rewrite papply_V in K.
    rewrite papply_V in E. congruence.
Qed.

(* a projector which always writes a result *)
Definition writes : Prop := forall p b, leaf p <> Ok (b, None).
(* ... or at least when it succeeds *)
Definition writes_ok : Prop := forall p, leaf p <> Ok (true, None).
Lemma papply_writes t b : writes -> papply t None <> Ok (b, None).
Proof.
  intros W E. destruct t as [p|l].
  - cbn [PathProjModel.papply] in E. destruct (leaf p) as [[b' [r|]]| | |] eqn:El; cbn [bind] in E; try discriminate. exact (W _ _ El).
  - pose proof (papply_none _ (Some (V [])) _ E) as K. rewrite papply_V in *. congruence.
Qed.
Lemma papply_writes_ok t : writes_ok -> papply t None <> Ok (true, None).
Proof.
  intros W E. destruct t as [p|l].
  - cbn [PathProjModel.papply] in E. destruct (leaf p) as [[b' [r|]]| | |] eqn:El; cbn [bind] in E; try discriminate.
    injection E as ->. exact (W _ El).
  - pose proof (papply_none _ (Some (V [])) _ E) as K. rewrite papply_V in *. congruence.
Qed.

Lemma vloop_spec : writes_ok -> forall l i part acc b o, vloop l i part acc = Ok (b, o) ->
  exists l1 l2 rs, l = l1 ++ l2 /\ Forall2 (fun x r => papply x None = Ok (true, Some r)) l1 rs /\
    ((b = true /\ l2 = [] /\ o = Some (V (acc ++ rs))) \/
     (b = false /\ exists x l3, l2 = x :: l3 /\
       ((exists r, papply x None = Ok (false, Some r) /\
          o = Some (V (if qltb 0 (tlen r) || (i + length l1 =? 0)%nat then acc ++ rs ++ [r] else acc ++ rs))) \/
        (papply x None = Ok (false, None) /\
          o = Some (V (match last (map Some rs) part with
               | Some r => if qltb 0 (tlen r) || (i + length l1 =? 0)%nat then acc ++ rs ++ [r] else acc ++ rs
               | None => acc ++ rs end)))))).
Proof.
  intros W. induction l as [|x l IH]; intros i part acc b o; cbn [PathProjModel.vloop].
  - intros E. injection E as <- <-. exists [], [], []. split; [reflexivity|]. split; [constructor|]. left. rewrite app_nil_r. auto.
  - destruct (papply x part) as [[b' o']| | |] eqn:Ex; cbn [bind]; try discriminate.
    destruct (papply_inv _ _ _ _ Ex) as [(r & Er & ->)|(Er & ->)].
    + destruct b'.
      * intros E. apply IH in E as (l1 & l2 & rs & -> & F & D). exists (x :: l1), l2, (r :: rs).
        split; [reflexivity|]. split; [constructor; assumption|].
        destruct D as [(-> & -> & ->)|(-> & y & l3 & -> & D)].
        { left. rewrite <- app_assoc. auto. }
        right. split; [reflexivity|]. exists y, l3. split; [reflexivity|]. cbn [length]. rewrite <- plus_n_Sm.
        rewrite plus_Sn_m in D.
        destruct D as [(r' & D1 & D2)|(D1 & D2)];
          [left; exists r'; split; [exact D1|rewrite D2, <- !app_assoc; reflexivity]|right; split; [exact D1|]].
        rewrite D2. cbn [map]. replace (last (Some r :: map Some rs) part) with (last (map Some rs) (Some r)); [destruct (last _ _); rewrite <- !app_assoc; reflexivity|].
        symmetry. apply last_cons.
      * intros E. injection E as <- <-. exists [], (x :: l), []. split; [reflexivity|]. split; [constructor|]. right.
        split; [reflexivity|]. exists x, l. split; [reflexivity|]. left. exists r. split; [exact Er|].
        cbn [length app]. rewrite Nat.add_0_r, app_nil_r. reflexivity.
    + destruct b'; [exfalso; exact (papply_writes_ok _ W Er)|].
      intros E. injection E as <- <-. exists [], (x :: l), []. split; [reflexivity|]. split; [constructor|]. right.
      split; [reflexivity|]. exists x, l. split; [reflexivity|]. right. split; [exact Er|].
      cbn [length app map last]. rewrite Nat.add_0_r, app_nil_r. reflexivity.
Qed.

(* contiguity *)
Definition leaf_sound : Prop := forall p b t, leaf p = Ok (b, Some t) ->
  exists q', ochained (init p) (leaves t) q' /\ (b = true -> q' = fin p).
Lemma vloop_chain (S : writes) : forall l,
  Forall (fun x => forall q q' b t, chained init fin q (leaves x) q' -> papply x None = Ok (b, Some t) ->
    exists qe, ochained q (leaves t) qe /\ (b = true -> qe = q')) l ->
  forall i part acc q0 q q' b t, chained init fin q (flat_map leaves l) q' -> ochained q0 (flat_map leaves acc) q ->
    vloop l i part acc = Ok (b, Some t) -> exists qe, ochained q0 (leaves t) qe /\ (b = true -> qe = q').
Proof.
  induction l as [|x l IH]; intros HF i part acc q0 q q' b t CH CA; cbn [PathProjModel.vloop].
  - cbn in CH. intros E. injection E as <- <-. exists q. cbn [leaves]. auto.
  - cbn [flat_map] in CH. apply chained_app in CH as (m & C1 & C2). inversion HF as [|? ? Hx Hl]; subst.
    destruct (papply x part) as [[b' o']| | |] eqn:Ex; cbn [bind]; try discriminate.
    destruct (papply_inv _ _ _ _ Ex) as [(r & Er & ->)|(Er & ->)]; [|exfalso; exact (papply_writes _ _ S Er)].
    destruct (Hx _ _ _ _ C1 Er) as (qe & K & Kb).
    assert (CA' : ochained q0 (flat_map leaves (acc ++ [r])) qe).
    { rewrite flat_map_app. cbn [flat_map]. rewrite app_nil_r. apply chained_app. eauto. }
    destruct b'.
    + specialize (Kb eq_refl). rewrite Kb in *. intros E. exact (IH Hl _ _ _ _ _ _ _ _ C2 CA' E).
    + intros E. injection E as <- <-. destruct (_ || _); [exists qe|exists q]; cbn [leaves]; split; auto; discriminate.
Qed.
Lemma papply_chain : writes -> leaf_sound -> forall t q q' b r,
  chained init fin q (leaves t) q' -> papply t None = Ok (b, Some r) ->
  exists qe, ochained q (leaves r) qe /\ (b = true -> qe = q').
Proof.
  intros W S. apply (tree_rec' P (fun t => forall q q' b r,
    chained init fin q (leaves t) q' -> papply t None = Ok (b, Some r) -> exists qe, ochained q (leaves r) qe /\ (b = true -> qe = q'))).
  - intros p q q' b r. cbn. intros (<- & <-). destruct (leaf p) as [[b' o]| | |] eqn:El; cbn [bind]; try discriminate.
    destruct o as [r'|]; [|discriminate]. intros E. injection E as <- <-. destruct (S _ _ _ El) as (qe & A & B). eauto.
  - intros l HF q q' b r CH E. rewrite papply_V in E. cbn [leaves] in CH.
    exact (vloop_chain W l HF 0%nat None [] q q q' b r CH eq_refl E).
Qed.
End Vector.

(* ---------------------------------------------------- progressive *)
Lemma spaced_map {C P} (init fin : P -> C) dist d l : forall q q', chained init fin q l q' ->
  Forall (fun p => dist (init p) (fin p) <= d) l -> spaced dist d (q :: map fin l).
Proof.
  induction l as [|p l IH]; intros q q'; cbn [chained map]; [intros; exact I|]. intros (<- & H) HF.
  inversion HF; subst. split; [assumption|]. exact (IH _ _ H H3).
Qed.

Section Prog.
Context {C P : Type}.
Variable init fin : P -> C.
Variable len : P -> Qc.
Variable ev : P -> Qc -> C.
Variable cons : P -> option (cset C).
Variable dist : C -> C -> Qc.
Variable steer : C -> C -> option P.
Variable rhs : C.
Variables step thrmin eps : Qc.
Variable hess : option (Qc * (C -> Qc)).
Hypothesis HS : steers init fin steer.
Hypothesis HL : forall a b p, steer a b = Some p -> len p = dist a b.
Hypothesis Dn : forall a b, 0 <= dist a b.
Hypothesis D0 : forall a b, dist a b = 0 -> a = b.
Notation outT := (out C P).
Notation thr_at := (thr_at C step hess).
Notation tries := (tries C P init ev dist rhs).
Notation prog_loop := (prog_loop C P init len ev dist steer rhs step thrmin eps hess).
Notation insert_all := (insert_all C P init len).
Notation minsert := (minsert C).

Lemma mind_pos : 0 < mind. Proof. reflexivity. Qed.

Section K.
Variable k : cset C.
Hypothesis HA : honest_apply k.

Lemma tries_spec s thr : forall n stp cur q,
  (match cur with None => True | Some c => thr < c \/ c < mind end) ->
  tries n k s thr stp cur = Some q ->
  c_sat k rhs q = true /\ dist (init s) q <= thr /\ mind <= dist (init s) q.
Proof.
  induction n as [|n IH]; intros stp cur q Hc; cbn [PathProjModel.tries]; [discriminate|].
  destruct (c_apply k rhs (ev s stp)) as [b q0] eqn:Ea. destruct b.
  - destruct (qltb_spec thr (dist (init s) q0)) as [G|G]; cbn [orb].
    { apply IH. auto. }
    destruct (qltb_spec (dist (init s) q0) mind) as [G'|G'].
    { apply IH. auto. }
    destruct n; [discriminate|]. intros E. injection E as <-. split; [exact (HA _ _ _ Ea)|auto].
  - destruct cur as [c|].
    + destruct (qltb_spec thr c); cbn [orb]; [apply IH; exact Hc|].
      destruct (qltb_spec c mind); [apply IH; exact Hc|]. exfalso. destruct Hc; qc.
    + apply IH. exact I.
Qed.

(* pieces built by the loop *)
Definition piece (p : P) : Prop := len p = dist (init p) (fin p) /\ mind <= len p /\ c_sat k rhs (fin p) = true.
Lemma prog_loop_spec q2 mx : forall fuel s paths c thr q1 b paths',
  chained init fin q1 paths (init s) -> fin s = q2 -> len s = dist (init s) (fin s) ->
  Forall piece paths -> length paths = c -> (c <= S mx)%nat ->
  (hess = None -> thr = step /\ Forall (fun p => dist (init p) (fin p) <= step) paths) ->
  prog_loop fuel k q2 mx s paths c thr = Ok (b, paths') ->
  (length paths' <= S (S mx))%nat /\
  (b = false -> Forall piece paths' /\ exists q', chained init fin q1 paths' q') /\
  (b = true -> exists body z, paths' = body ++ [z] /\ Forall piece body /\ len z = dist (init z) (fin z) /\
     chained init fin q1 paths' q2) /\
  (hess = None -> Forall (fun p => dist (init p) (fin p) <= step) paths').
Proof.
  induction fuel as [|f IH]; intros s paths c thr q1 b paths' CH FS LS PS EC LC HN; cbn [PathProjModel.prog_loop]; [discriminate|].
  assert (Fl : (length paths <= S (S mx))%nat /\
    (false = false -> Forall piece paths /\ exists q', chained init fin q1 paths q') /\
    (false = true -> exists body z, paths = body ++ [z] /\ Forall piece body /\ len z = dist (init z) (fin z) /\
       chained init fin q1 paths q2) /\
    (hess = None -> Forall (fun p => dist (init p) (fin p) <= step) paths)).
  { split; [lia|]. split; [eauto|]. split; [discriminate|]. intros H. apply HN. exact H. }
  destruct (qltb_spec (len s) thr) as [Lt|_].
  - intros E. injection E as <- <-. split; [rewrite app_length; cbn; lia|]. split; [discriminate|]. split.
    + intros _. exists paths, s. split; [reflexivity|]. split; [exact PS|]. split; [exact LS|].
      apply chained_app. exists (init s). split; [exact CH|]. cbn. auto.
    + intros H. destruct (HN H) as (-> & F). apply Forall_app. split; [exact F|]. constructor; [|constructor].
      rewrite <- LS. apply Qclt_le_weak. exact Lt.
  - destruct (qltb thr thrmin). { intros E. injection E as <- <-. exact Fl. }
    destruct (tries 10 k s thr (thr - eps) None) as [q|] eqn:Et. 2: { intros E. injection E as <- <-. exact Fl. }
    destruct (tries_spec s thr 10%nat (thr - eps) None q I Et) as (T1 & T2 & T3).
    destruct (Nat.ltb_spec mx c) as [G|G]. { intros E. injection E as <- <-. exact Fl. }
    rewrite T1. cbn [negb].
    destruct (steer (init s) q) as [part|] eqn:E1; [|discriminate]. destruct (steer q q2) as [s'|] eqn:E2; [|discriminate].
    destruct (HS _ _ _ E1) as (A1 & A2). destruct (HS _ _ _ E2) as (B1 & B2).
    pose proof (HL _ _ _ E1) as L1. pose proof (HL _ _ _ E2) as L2.
    apply IH.
    + apply chained_app. exists (init s). split; [exact CH|]. cbn. rewrite A1, A2, B1. auto.
    + exact B2.
    + rewrite B1, B2. exact L2.
    + apply Forall_app. split; [exact PS|]. constructor; [|constructor]. unfold piece. rewrite A1, A2, L1. auto.
    + rewrite app_length. cbn. lia.
    + lia.
    + intros H. destruct (HN H) as (-> & F). split; [unfold PathProjModel.thr_at; rewrite H; reflexivity|].
      apply Forall_app. split; [exact F|]. constructor; [|constructor]. rewrite A1, A2. exact T2.
Qed.
Lemma prog_loop_fuel q2 mx : forall fuel s paths c thr, (S (S mx) <= fuel + c)%nat -> (0 < fuel)%nat ->
  prog_loop fuel k q2 mx s paths c thr <> Fuel.
Proof.
  induction fuel as [|f IH]; intros s paths c thr F F0; [lia|]. cbn [PathProjModel.prog_loop].
  destruct (qltb (len s) thr); [discriminate|]. destruct (qltb thr thrmin); [discriminate|].
  destruct (tries _ _ _ _ _ _) as [q|]; [|discriminate]. destruct (Nat.ltb_spec mx c); [discriminate|].
  destruct (negb _); [discriminate|]. destruct (steer _ _); [|discriminate]. destruct (steer _ _); [|discriminate].
  apply IH; lia.
Qed.

(* interpolation points *)
Fixpoint total (l : list P) : Qc := match l with [] => 0 | p :: r => len p + total r end.
Lemma fold_total l : forall x, fold_left (fun x p => x + len p) l x = x + total l.
Proof. induction l as [|p l IH]; intros x; cbn; [qc|]. rewrite IH. qc. Qed.
Lemma minsert_between t q m T qe : Forall (fun y => fst y < t) m -> t < T ->
  minsert t q (m ++ [(T, qe)]) = m ++ [(t, q); (T, qe)].
Proof.
  intros H HT. induction H as [|[t' q'] m H _ IH]; cbn [app PathProjModel.minsert].
  - destruct (qltb_spec t T); [reflexivity|exfalso; qc].
  - cbn [fst] in H. destruct (qltb_spec t t'); [exfalso; qc|]. destruct (qltb_spec t' t); [|exfalso; qc]. rewrite IH. reflexivity.
Qed.
Lemma minsert_last q m T qe : Forall (fun y => fst y < T) m -> minsert T q (m ++ [(T, qe)]) = m ++ [(T, qe)].
Proof.
  intros H. induction H as [|[t' q'] m H _ IH]; cbn [app PathProjModel.minsert].
  - destruct (qltb_spec T T) as [X|X]; [exfalso; qc|reflexivity].
  - cbn [fst] in H. destruct (qltb_spec T t'); [exfalso; qc|]. destruct (qltb_spec t' T); [|exfalso; qc]. rewrite IH. reflexivity.
Qed.
Fixpoint stamps (t : Qc) (l : list P) : list (Qc * C) :=
  match l with [] => [] | p :: l' => (t, init p) :: stamps (t + len p) l' end.
Lemma total_app l m : total (l ++ m) = total l + total m.
Proof. induction l as [|p l IH]; cbn; [qc|]. rewrite IH. qc. Qed.
Lemma total_nonneg l : Forall (fun p => 0 < len p) l -> 0 <= total l.
Proof. induction 1 as [|p l H _ IH]; cbn; [apply Qcle_refl|qc]. Qed.
Lemma insert_body T qe rest : forall t m l0, Forall (fun y => fst y < t) m -> Forall (fun p => 0 < len p) l0 ->
  t + total l0 <= T -> insert_all t (l0 ++ rest) (m ++ [(T, qe)]) = insert_all (t + total l0) rest ((m ++ stamps t l0) ++ [(T, qe)]) /\
  Forall (fun y => fst y < t + total l0) (m ++ stamps t l0).
Proof.
  intros t m l0. revert t m. induction l0 as [|p l0 IH]; intros t m Hm Hl HT; cbn [app PathProjModel.insert_all stamps total] in *.
  - rewrite app_nil_r. replace (t + 0) with t by qc. auto.
  - inversion Hl as [|? ? H1 H2]; subst. pose proof (total_nonneg _ H2).
    rewrite (minsert_between t (init p) m T qe Hm) by qc.
    replace (m ++ [(t, init p); (T, qe)]) with ((m ++ [(t, init p)]) ++ [(T, qe)]) by (rewrite <- app_assoc; reflexivity).
    destruct (IH (t + len p) (m ++ [(t, init p)])) as (E & F).
    + apply Forall_app. split; [eapply Forall_impl; [|exact Hm]; cbn; intros y Hy; qc|]. constructor; [|constructor]. cbn. qc.
    + exact H2.
    + qc.
    + rewrite E. replace (t + (len p + total l0)) with (t + len p + total l0) by qc.
      rewrite <- !app_assoc in F. cbn [app] in F. split; [|exact F]. rewrite <- !app_assoc. reflexivity.
Qed.

(* the points of the interpolated path are the junctions; a last piece of
   length 0 adds none *)
Lemma stamps_snd : forall l t, map snd (stamps t l) = map init l.
Proof. induction l as [|p l IH]; intros t; cbn; [reflexivity|]. rewrite IH. reflexivity. Qed.
Lemma chained_shift l : forall q q' , chained init fin q l q' -> q :: map fin l = map init l ++ [q'].
Proof.
  induction l as [|p l IH]; intros q q'; cbn [chained map]; [intros ->; reflexivity|].
  intros (<- & H). cbn [app]. rewrite <- (IH _ _ H). reflexivity.
Qed.
Lemma last_fin l p q q' : chained init fin q (l ++ [p]) q' -> fin p = q'.
Proof. intros H. apply chained_app in H as (m & _ & H). cbn in H. apply H. Qed.

(* [s :: mid ++ [z]] with positive pieces but perhaps z *)
Lemma points_spec s mid z q1 qe : Forall (fun p => 0 < len p) (s :: mid) -> len z = dist (init z) (fin z) ->
  chained init fin q1 (s :: mid ++ [z]) qe ->
  exists x m, insert_all (len s) (mid ++ [z]) ((0, q1) :: [(total (s :: mid ++ [z]), qe)]) = x :: m /\ x = (0, q1) /\
    (map snd (x :: m) = q1 :: map fin (s :: mid ++ [z]) \/
     (init z = fin z /\ map snd (x :: m) = q1 :: map fin (s :: mid))).
Proof.
  intros HP Lz CH. inversion HP as [|? ? H1 H2]; subst. pose proof (Dn (init z) (fin z)) as Dz. rewrite <- Lz in Dz.
  set (T := total (s :: mid ++ [z])). assert (ET : T = len s + total mid + len z).
  { unfold T. cbn [total]. rewrite total_app. cbn [total]. qc. }
  change ((0, q1) :: [(T, qe)]) with ([(0, q1)] ++ [(T, qe)]).
  destruct (insert_body T qe [z] (len s) [(0, q1)] mid) as (E & F).
  { constructor; [exact H1|constructor]. } { exact H2. } { qc. }
  rewrite E. cbn [PathProjModel.insert_all]. cbn [app] in F |- *.
  destruct (Qcle_lt_or_eq _ _ Dz) as [Lt|Eq].
  - change ((0, q1) :: stamps (len s) mid ++ [(T, qe)]) with (((0, q1) :: stamps (len s) mid) ++ [(T, qe)]).
    rewrite minsert_between by (try exact F; qc). cbn [app]. eexists _, _. split; [reflexivity|]. split; [reflexivity|]. left.
    cbn [map snd]. f_equal. rewrite map_app, stamps_snd. cbn [map snd]. destruct CH as (<- & CH).
    pose proof (chained_shift _ _ _ CH) as K. cbn [map]. rewrite K. rewrite map_app, <- app_assoc. reflexivity.
  - assert (Et : len s + total mid = T) by (rewrite ET, <- Eq; qc). rewrite Et in *.
    change ((0, q1) :: stamps (len s) mid ++ [(T, qe)]) with (((0, q1) :: stamps (len s) mid) ++ [(T, qe)]).
    rewrite minsert_last by exact F. cbn [app]. eexists _, _. split; [reflexivity|]. split; [reflexivity|]. right.
    assert (Ez : init z = fin z) by (apply D0; congruence). split; [exact Ez|].
    cbn [map snd]. f_equal. rewrite map_app, stamps_snd. cbn [map snd]. destruct CH as (<- & CH).
    pose proof (last_fin mid z _ _ CH) as Fz. apply chained_app in CH as (m & CH & CZ). cbn in CZ.
    pose proof (chained_shift _ _ _ CH) as K. cbn [map]. rewrite K. destruct CZ as (<- & _). congruence.
Qed.

Lemma last_map_snd {A B} (l : list (A * B)) : forall x, snd (last l x) = last (map snd l) (snd x).
Proof. induction l as [|y l IH]; intros x; cbn [map]; [reflexivity|]. rewrite !last_cons. apply IH. Qed.
Lemma prog_out_spec p (ok : bool) (paths : list P) q1 mx b o : Forall piece (if ok then removelast paths else paths) ->
  (forall z l, paths = l ++ [z] -> len z = dist (init z) (fin z) /\ c_sat k rhs (fin z) = true) ->
  (exists q', chained init fin q1 paths q') -> (length paths <= S (S mx))%nat -> init p = q1 ->
  (hess = None -> Forall (fun p => dist (init p) (fin p) <= step) paths) ->
  prog_out C P init fin len rhs k p q1 ok paths = Ok (b, o) ->
  exists x, o = Some (L x) /\ oinit C P init x = q1 /\
    ((paths = [] /\ x = Start p /\ b = false) \/
     (paths <> [] /\ b = ok /\ chained init fin q1 paths (ofin C P init fin x) /\
      Forall (fun q => c_sat k rhs q = true) (waypoints init fin x) /\ (length (waypoints init fin x) <= S (S (S mx)))%nat /\
      (hess = None -> spaced dist step (waypoints init fin x)))).
Proof.
  intros HP HZ (q' & CH) HLn Ep HN. destruct paths as [|s [|s2 rest]]; cbn [prog_out].
  - intros E. injection E as <- <-. eexists. split; [reflexivity|]. split; [exact Ep|]. left. auto.
  - unfold con. destruct (c_sat k rhs (init s)) eqn:S1; cbn [andb bind]; [|discriminate].
    destruct (c_sat k rhs (fin s)) eqn:S2; cbn [bind]; [|discriminate]. intros E. injection E as <- <-.
    cbn in CH. destruct CH as (<- & <-). eexists. split; [reflexivity|]. split; [reflexivity|]. right.
    split; [discriminate|]. split; [reflexivity|]. cbn. split; [auto|]. split; [repeat constructor; assumption|].
    split; [lia|]. intros H. specialize (HN H). inversion HN; subst. auto.
  - destruct (@exists_last P (s2 :: rest)) as (mid & z & Er); [discriminate|].
    rewrite Er in *. clear Er s2 rest.
    destruct (HZ z (s :: mid) eq_refl) as (Lz & Sz).
    assert (HB : Forall piece (s :: mid)).
    { destruct ok; [|apply (proj1 (Forall_app _ (s :: mid) [z])); exact HP].
      change (s :: mid ++ [z]) with ((s :: mid) ++ [z]) in HP. rewrite removelast_last in HP. exact HP. }
    assert (HPos : Forall (fun p => 0 < len p) (s :: mid)).
    { eapply Forall_impl; [|exact HB]. intros y (_ & H & _). eapply Qclt_le_trans; [apply mind_pos|exact H]. }
    pose proof (last_fin (s :: mid) z q1 q' CH) as Fz.
    assert (EL : fin (last (mid ++ [z]) s) = q') by (rewrite last_last; exact Fz). rewrite EL.
    rewrite fold_total. replace (0 + total (s :: mid ++ [z])) with (total (s :: mid ++ [z])) by qc.
    assert (TP : 0 < total (s :: mid ++ [z])).
    { pose proof (Dn (init z) (fin z)) as Dz. rewrite <- Lz in Dz. inversion HPos as [|? ? P1 P2]; subst.
      pose proof (total_nonneg _ P2). cbn [total]. rewrite total_app. cbn [total]. qc. }
    cbn [PathProjModel.minsert]. destruct (qltb_spec (total (s :: mid ++ [z])) 0) as [X|_]; [exfalso; qc|].
    destruct (qltb_spec 0 (total (s :: mid ++ [z]))) as [_|X]; [|exfalso; qc].
    cbn [snd last]. destruct (c_sat k rhs q1) eqn:S1; cbn [andb]; [|discriminate]. rewrite <- Fz, Sz, Fz.
    destruct (points_spec s mid z q1 q' HPos Lz CH) as (x & m & Em & Ex & W). rewrite Em.
    intros E. injection E as <- <-. eexists. split; [reflexivity|]. split; [rewrite Ex; reflexivity|]. right.
    split; [discriminate|]. split; [reflexivity|]. cbn [ofin].
    assert (Wl : snd (last m x) = q' /\ Forall (fun q => c_sat k rhs q = true) (map snd (x :: m)) /\
      (length (map snd (x :: m)) <= S (S (S mx)))%nat /\ (hess = None -> spaced dist step (map snd (x :: m)))).
    { rewrite last_map_snd. rewrite <- (last_cons (map snd m) (snd x) (snd x)). change (snd x :: map snd m) with (map snd (x :: m)).
      destruct W as [W|(Ez & W)]; rewrite W.
      - split; [|split; [|split]].
        + rewrite last_cons. change (map fin (s :: mid ++ [z])) with (map fin ((s :: mid) ++ [z])).
          rewrite map_app. cbn [map]. rewrite last_last. exact Fz.
        + constructor; [exact S1|]. change (s :: mid ++ [z]) with ((s :: mid) ++ [z]). apply Forall_map, Forall_app.
          split; [eapply Forall_impl; [|exact HB]; intros y (_ & _ & H); exact H|]. constructor; [exact Sz|constructor].
        + cbn [length] in *. rewrite map_length. cbn [length] in *. lia.
        + intros H. exact (spaced_map init fin dist step _ _ _ CH (HN H)).
      - change (s :: mid ++ [z]) with ((s :: mid) ++ [z]) in CH. apply chained_app in CH as (w & CH & CZ). cbn in CZ.
        destruct CZ as (Cz & _).
        split; [|split; [|split]].
        + rewrite last_cons. rewrite <- Fz, <- Ez, Cz. pose proof (chained_shift (s :: mid) _ _ CH) as K.
          assert (KL : last (q1 :: map fin (s :: mid)) q1 = w) by (rewrite K; apply last_last).
          rewrite last_cons in KL. exact KL.
        + constructor; [exact S1|]. apply Forall_map. eapply Forall_impl; [|exact HB]; intros y (_ & _ & H); exact H.
        + cbn [length] in *. rewrite map_length. rewrite app_length in HLn. cbn [length] in *. lia.
        + intros H. specialize (HN H). change (s :: mid ++ [z]) with ((s :: mid) ++ [z]) in HN. apply Forall_app in HN as (HN & _).
          exact (spaced_map init fin dist step _ _ _ CH HN). }
    destruct Wl as (W1 & W2 & W3 & W4). rewrite W1. split; [exact CH|]. cbn [waypoints]. auto.
Qed.
End K.

Notation progressive := (progressive C P init fin len ev cons dist steer rhs step thrmin eps hess).
Lemma progressive_spec fuel p b o : (forall k, cons p = Some k -> honest_apply k) -> progressive fuel p = Ok (b, o) ->
  (o = None /\ b = false /\ exists k, cons p = Some k /\ c_sat k rhs (fin p) = false) \/
  (exists x, o = Some (L x) /\ oinit C P init x = init p /\
    ((x = Raw p /\ b = true /\ (forall k, cons p = Some k -> c_cp k && c_dim k = false)) \/
     (x = Start p /\ b = false) \/
     (exists k mx, cons p = Some k /\ max_split P len step p = Some mx /\ (b = true -> ofin C P init fin x = fin p) /\
        Forall (fun q => c_sat k rhs q = true) (waypoints init fin x) /\
        (length (waypoints init fin x) <= mx + 3)%nat /\ (hess = None -> spaced dist step (waypoints init fin x))))).
Proof.
  intros HA. unfold PathProjModel.progressive. destruct (cons p) as [k|] eqn:Ek.
  2: { intros E. injection E as <- <-. right. eexists. split; [reflexivity|]. split; [reflexivity|]. left. split; [reflexivity|]. split; [reflexivity|]. discriminate. }
  specialize (HA k eq_refl). destruct (c_cp k) eqn:Ec; cbn [negb].
  2: { intros E. injection E as <- <-. right. eexists. split; [reflexivity|]. split; [reflexivity|]. left. split; [reflexivity|].
       split; [reflexivity|]. intros k' E. injection E as <-. rewrite Ec. reflexivity. }
  destruct (max_split P len step p) as [mx|] eqn:Em; [|discriminate].
  destruct (c_sat k rhs (fin p)) eqn:S2; cbn [negb].
  2: { intros E. injection E as <- <-. left. eauto. }
  destruct (c_dim k) eqn:Ed; cbn [negb].
  2: { intros E. injection E as <- <-. right. eexists. split; [reflexivity|]. split; [reflexivity|]. left. split; [reflexivity|].
       split; [reflexivity|]. intros k' E. injection E as <-. rewrite Ed. apply andb_false_r. }
  destruct (steer (init p) (fin p)) as [s|] eqn:Es; [|discriminate].
  destruct (HS _ _ _ Es) as (A1 & A2). pose proof (HL _ _ _ Es) as LS.
  destruct (prog_loop fuel k (fin p) mx s [] 0 (thr_at (init p))) as [[ok paths]| | |] eqn:El; cbn [bind]; try discriminate.
  destruct (prog_loop_spec k HA (fin p) mx fuel s [] 0%nat (thr_at (init p)) (init p) ok paths) as (B1 & B2 & B3 & B4).
  { cbn. auto. } { exact A2. } { rewrite A1, A2. exact LS. } { constructor. } { reflexivity. } { lia. }
  { intros H. split; [unfold PathProjModel.thr_at; rewrite H; reflexivity|constructor]. }
  { exact El. }
  intros E. right.
  destruct (prog_out_spec k p ok paths (init p) mx b o) as (x & -> & K1 & K2).
  - destruct ok; [|apply B2; reflexivity]. destruct (B3 eq_refl) as (body & z & -> & PB & _). rewrite removelast_last. exact PB.
  - intros z l ->. destruct ok.
    + destruct (B3 eq_refl) as (body & z' & Eb & PB & Lz & CH). apply app_inj_tail in Eb as (<- & <-). split; [exact Lz|].
      rewrite (last_fin _ _ _ _ CH). exact S2.
    + destruct (B2 eq_refl) as (PB & _). apply Forall_app in PB as (_ & PB). inversion PB as [|? ? (Z1 & _ & Z2) _]; subst. auto.
  - destruct ok; [destruct (B3 eq_refl) as (body & z & _ & _ & _ & CH); eauto|apply B2; reflexivity].
  - exact B1.
  - reflexivity.
  - exact B4.
  - exact E.
  - exists x. split; [reflexivity|]. split; [exact K1|]. destruct K2 as [(_ & -> & ->)|(NE & -> & CH & W1 & W2 & W3)]; [auto|].
    right. right. exists k, mx. split; [reflexivity|]. split; [reflexivity|]. split; [|split; [exact W1|split; [lia|exact W3]]].
    intros ->. destruct (B3 eq_refl) as (body & z & _ & _ & _ & CH'). eapply chained_fun; [exact CH|exact CH'].
Qed.
Lemma progressive_fuel fuel p : (forall mx, max_split P len step p = Some mx -> (mx + 2 <= fuel)%nat) -> progressive fuel p <> Fuel.
Proof.
  intros F. unfold PathProjModel.progressive. destruct (cons p) as [k|]; [|discriminate].
  destruct (negb _); [discriminate|]. destruct (max_split P len step p) as [mx|]; [|discriminate]. specialize (F mx eq_refl).
  destruct (negb _); [discriminate|]. destruct (negb _); [discriminate|]. destruct (steer _ _) as [s|]; [|discriminate].
  destruct (prog_loop fuel k (fin p) mx s [] 0 (thr_at (init p))) as [[ok paths]| | |] eqn:El; cbn [bind]; try discriminate.
  - unfold prog_out. destruct paths as [|a [|a' l]]; [discriminate| |].
    + unfold con. destruct (_ && _); discriminate.
    + destruct (minsert _ _ _); [discriminate|]. destruct (_ && _); [|discriminate]. destruct (insert_all _ _ _); discriminate.
  - exfalso. eapply prog_loop_fuel; [| |exact El]; lia.
Qed.
End Prog.
