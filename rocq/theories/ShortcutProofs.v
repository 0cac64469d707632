(* Random shortcut: invariant of the loop. *)
From Coq Require Import Lia Sorted.
From Verif Require Import Base QcTac PathModel VecModel VecSpec VecProofs ShortcutModel ShortcutSpec.
Open Scope Qc_scope.

Section Proofs.
Variables C P : Type.
Variable init fin : P -> C.
Variable rng : P -> Qc * Qc.
Variable ev : P -> Qc -> option C.
Variable cut : P -> Qc * Qc -> res P.
Variable dist : C -> C -> Qc.
Variable steer : C -> C -> option P.
Variable valid : P -> bool.
Variable stop : nat -> bool.
Variable draw : nat -> Qc * Qc.
Variable G : P -> Prop.
Hypothesis HG : honest init fin rng ev cut G.
Hypothesis HS : steers init fin steer G.
Hypothesis HD : forall k, 0 <= fst (draw k) /\ fst (draw k) <= 1 /\ 0 <= snd (draw k) /\ snd (draw k) <= 1.
Notation vlen := (vlen rng).
Notation veval := (veval rng ev).
Notation vextract := (vextract rng cut).
Notation chained := (chained init fin).
Notation cost := (cost init fin dist).
Notation dlen := (dlen C P init fin dist).
Notation add_part := (add_part P rng cut valid).
Notation piece := (piece rng cut steer valid).
Notation body := (body C P init fin rng ev cut dist steer valid draw).
Notation loop := (loop C P init fin rng ev cut dist steer valid stop draw).
Notation optimize := (optimize C P init fin rng ev cut dist steer valid stop draw).
Notation state := (state P).

Lemma dlen_cost l : dlen l = cost l.
Proof.
  unfold ShortcutModel.dlen. assert (A : forall a, fold_left (fun r p => r + dist (init p) (fin p)) l a = a + cost l).
  { induction l as [|p l IH]; intros a; cbn [fold_left VecSpec.cost]; [qc|rewrite IH; qc]. }
  rewrite A. qc.
Qed.

Lemma shoot_range k t3 : 0 <= t3 ->
  let (t1, t2) := shoot draw k 0 t3 in 0 <= t1 /\ t1 <= t2 /\ t2 <= t3.
Proof.
  intros H. destruct (HD k) as (A & B & D & E). unfold shoot.
  assert (M : forall u, 0 <= u -> u <= 1 -> 0 <= (t3 - 0) * u /\ (t3 - 0) * u <= t3).
  { intros u U0 U1. split.
    - replace 0 with (0 * u) at 1 by qc. apply Qcmult_le_compat_r; [qc|exact U0].
    - replace t3 with (t3 * 1) at 2 by qc. rewrite Qcmult_comm, (Qcmult_comm t3 1).
      replace (t3 - 0) with t3 by qc. apply Qcmult_le_compat_r; assumption. }
  destruct (M _ A B) as [M1 M2]. destruct (M _ D E) as [M3 M4].
  qcaselt ((t3 - 0) * snd (draw k)) ((t3 - 0) * fst (draw k)); repeat split; qc.
Qed.

(* vector of the class, from q to q', made of pieces of [input] *)
Definition okv (input : list P) (q : C) (l : list P) (q' : C) : Prop :=
  Forall G l /\ chained q l q' /\ Forall (piece input) l.

Lemma okv_app input q l x m q' : okv input q l x -> okv input x m q' -> okv input q (l ++ m) q'.
Proof.
  intros (A & B & D) (A' & B' & D'). split; [apply Forall_app; auto|]. split; [|apply Forall_app; auto].
  apply chained_app. eauto.
Qed.

Lemma okv_part input tmp l : Forall (piece input) tmp -> Forall (part_of P rng cut tmp) l ->
  Forall (piece input) l.
Proof.
  intros H K. rewrite Forall_forall in *. intros p Hp.
  destruct (K p Hp) as [I|(p0 & a & b & I & A & B & D & E)]; [auto|].
  eapply piece_part; [apply H; exact I|eassumption..].
Qed.

Lemma add_part_spec input q0 q3 tmp q acc a b qa qb o :
  okv input q0 tmp q3 -> tmp <> [] -> 0 <= a -> a <= b -> b <= vlen tmp ->
  veval tmp a = Ok (Some qa) -> veval tmp b = Ok (Some qb) -> steer qa qb = o ->
  okv input q acc qa ->
  match add_part tmp acc o a b with
  | Ok l => okv input q l qb /\ l <> []
  | Throw => True
  | _ => ~ cut_defined rng cut G
  end.
Proof.
  intros (A & B & D) Hne Ha Hab Hb Ea Eb Es Hacc.
  assert (X : match bind (vextract tmp a b) (fun e => Ok (acc ++ e)) with
              | Ok l => okv input q l qb /\ l <> []
              | Throw => True
              | _ => ~ cut_defined rng cut G
              end).
  { pose proof (vextract_spec _ _ _ _ _ _ _ _ HG q0 tmp q3 a b A Hne B Ha Hab Hb) as V.
    destruct (vextract tmp a b) as [l'| | |]; cbn [bind]; auto.
    destruct V as (V1 & _ & V3 & V4 & qa' & qb' & V5 & V6 & V7).
    replace qa' with qa in * by congruence. replace qb' with qb in * by congruence.
    split; [|destruct acc; [exact V4|discriminate]].
    eapply okv_app; [exact Hacc|]. split; [exact V1|]. split; [exact V7|]. eapply okv_part; eassumption. }
  unfold ShortcutModel.add_part. destruct o as [p|]; [|exact X].
  destruct (valid p) eqn:Ev; [|exact X].
  destruct (HS _ _ _ Es) as (Gp & Ip & Fp).
  split; [|destruct acc; discriminate].
  eapply okv_app; [exact Hacc|]. split; [constructor; [exact Gp|constructor]|].
  split; [cbn; auto|]. constructor; [|constructor]. eapply piece_shortcut; eassumption.
Qed.

Definition assembled tmp p0 p1 p2 t1 t2 t3 : res (list P) :=
  bind (add_part tmp [] p0 0 t1) (fun r =>
  bind (add_part tmp r p1 t1 t2) (fun r => add_part tmp r p2 t2 t3)).

Lemma assembled_spec input q0 q3 tmp t1 t2 q1 q2 :
  okv input q0 tmp q3 -> tmp <> [] -> 0 <= t1 -> t1 <= t2 -> t2 <= vlen tmp ->
  veval tmp t1 = Ok (Some q1) -> veval tmp t2 = Ok (Some q2) ->
  match assembled tmp (steer q0 q1) (steer q1 q2) (steer q2 q3) t1 t2 (vlen tmp) with
  | Ok l => okv input q0 l q3 /\ l <> []
  | Throw => True
  | _ => ~ cut_defined rng cut G
  end.
Proof.
  intros H Hne H1 H12 H2 E1 E2. unfold assembled.
  pose proof H as (A & B & _).
  pose proof (veval_start _ _ _ _ _ _ _ _ HG _ _ _ A Hne B) as E0.
  pose proof (veval_stop _ _ _ _ _ _ _ _ HG _ _ _ A Hne B) as E3.
  assert (O : okv input q0 [] q0) by (repeat split; constructor).
  pose proof (Qcle_trans _ _ _ H12 H2) as H1'. pose proof (Qcle_trans _ _ _ H1 H12) as H2'.
  pose proof (add_part_spec input q0 q3 tmp q0 [] 0 t1 q0 q1 _ H Hne (Qcle_refl _) H1 H1' E0 E1 eq_refl O) as X1.
  destruct (add_part tmp [] (steer q0 q1) 0 t1) as [r1| | |]; cbn [bind]; auto.
  pose proof (add_part_spec input q0 q3 tmp q0 r1 t1 t2 q1 q2 _ H Hne H1 H12 H2 E1 E2 eq_refl (proj1 X1)) as X2.
  destruct (add_part tmp r1 (steer q1 q2) t1 t2) as [r2| | |]; cbn [bind]; auto.
  exact (add_part_spec input q0 q3 tmp q0 r2 t2 (vlen tmp) q2 q3 _ H Hne H2' H2 (Qcle_refl _) E2 E3 eq_refl (proj1 X2)).
Qed.

(* the deque: n entries, infinities then decreasing lengths, the current one last *)
Definition dge (a b : option Qc) : Prop :=
  match a, b with None, _ => True | Some x, Some y => y <= x | Some _, None => False end.
Definition deque (n : nat) (d : list (option Qc)) (cur : Qc) : Prop :=
  length d = n /\ StronglySorted dge d /\ exists d', d = d' ++ [Some cur].

Lemma deque_push n d cur nl : (0 < n)%nat -> deque n d cur -> nl < cur -> deque n (tl (d ++ [Some nl])) nl.
Proof.
  intros Hn (L & S & d' & E) Hlt.
  assert (S' : StronglySorted dge (d ++ [Some nl])).
  { assert (A : Forall (fun a => dge a (Some nl)) d).
    { subst d. clear L Hn. rewrite Forall_forall. intros a Ha.
      apply in_app_or in Ha. destruct Ha as [Ha|[<-|[]]]; [|cbn; apply Qclt_le_weak; exact Hlt].
      induction d' as [|x d' IH]; [contradiction|]. cbn [app] in S. inversion S as [|? ? S1 S2]; subst.
      destruct Ha as [->|Ha]; [|auto].
      rewrite Forall_forall in S2. specialize (S2 (Some cur) (in_elt _ _ _)).
      destruct a as [y|]; [|exact I]. cbn in *. qc. }
    clear L E Hn. induction d as [|x d IH]; cbn [app]; [constructor; constructor|].
    inversion S; subst. inversion A; subst. constructor; [auto|]. apply Forall_app. auto. }
  destruct d as [|x d]; [destruct d'; discriminate|].
  cbn [app tl] in *. repeat split.
  - rewrite app_length. cbn [length] in *. lia.
  - inversion S'; subst; assumption.
  - exists d. reflexivity.
Qed.

Lemma deque_last n d cur : (0 < n)%nat -> deque n d cur -> nth_error d (n - 1) = Some (Some cur).
Proof.
  intros Hn (L & _ & d' & ->). rewrite app_length in L. cbn [length] in L.
  replace (n - 1)%nat with (length d') by lia. apply nth_error_mid'.
Qed.

Definition inv (n : nat) (input : list P) (q0 q3 : C) (s : state) : Prop :=
  okv input q0 (s_tmp s) q3 /\ s_tmp s <> [] /\
  (s_tmp s = input \/ cost (s_tmp s) < cost input) /\
  deque n (s_len s) (cost (s_tmp s)) /\
  match s_res s with None => s_tmp s = input | Some r => r = s_tmp s end.

(* an improvement: strictly shorter, not finished unless the gain is small *)
Definition improved (n : nat) (s s' : state) : Prop :=
  cost (s_tmp s') < cost (s_tmp s) /\ s_err s' = n /\
  s_len s' = tl (s_len s ++ [Some (cost (s_tmp s'))]) /\
  (s_fin s' = false -> forall f, nth_error (s_len s') 0 = Some (Some f) ->
     Q2Qc (1 # 10000) * cost (s_tmp s') < f - cost (s_tmp s')).

Lemma compare_spec n input q0 q3 s r : (0 < n)%nat -> inv n input q0 q3 s -> okv input q0 r q3 -> r <> [] ->
  exists s', ShortcutModel.compare C P init fin dist n s r = Ok s' /\
    inv n input q0 q3 s' /\
    (s' = give_up P s \/ improved n s s').
Proof.
  intros Hn (A & Hne & B & D & R) Hr Hr0. unfold ShortcutModel.compare.
  rewrite (deque_last _ _ _ Hn D), dlen_cost. cbn [le_inf].
  qcase (cost (s_tmp s)) (cost r).
  - eexists. split; [reflexivity|]. split; [|left; reflexivity].
    repeat split; cbn [give_up s_tmp s_res s_len]; try apply A; try apply D; auto.
  - pose proof (deque_push _ _ _ _ Hn D Hc) as D'.
    rewrite (deque_last _ _ _ Hn D').
    set (d := tl (s_len s ++ [Some (cost r)])) in *.
    destruct (nth_error d 0) as [f|] eqn:Ef.
    + eexists. split; [reflexivity|]. split.
      * split; [exact Hr|]. cbn [s_tmp s_res s_len]. split; [exact Hr0|]. split; [|split; [exact D'|reflexivity]].
        right. destruct B as [B|B]; [rewrite <- B; exact Hc|eapply Qclt_trans; eassumption].
      * right. split; [exact Hc|]. split; [reflexivity|]. split; [reflexivity|].
        cbn [s_len s_tmp s_fin]. intros Hf f' Ef'. rewrite Ef in Ef'. injection Ef' as ->.
        cbn [small_gain] in Hf.
        destruct (qleb_spec (f' - cost r) (Q2Qc (1 # 10000) * cost r)) as [K|K]; [discriminate|exact K].
    + exfalso. apply nth_error_None in Ef. destruct D' as (L & _). lia.
Qed.

Lemma body_spec n input q0 q3 k s : (0 < n)%nat -> inv n input q0 q3 s ->
  match body n q0 q3 k s with
  | Ok s' => inv n input q0 q3 s' /\ (s' = fail P s \/ s' = give_up P s \/ improved n s s')
  | Throw => False
  | _ => ~ cut_defined rng cut G
  end.
Proof.
  intros Hn HI. pose proof HI as (A & Hne & B & D & R).
  pose proof A as (A1 & A2 & A3).
  assert (HF : inv n input q0 q3 (fail P s)).
  { repeat split; cbn [fail s_tmp s_res s_len]; auto; try apply D. }
  assert (HU : inv n input q0 q3 (give_up P s)).
  { repeat split; cbn [give_up s_tmp s_res s_len]; auto; try apply D. }
  unfold ShortcutModel.body.
  pose proof (shoot_range k (vlen (s_tmp s)) (vlen_nonneg _ _ _ _ _ _ _ _ HG _ A1)) as T.
  destruct (shoot draw k 0 (vlen (s_tmp s))) as [t1 t2]. destruct T as (T1 & T2 & T3).
  assert (Q : forall t, 0 <= t -> t <= vlen (s_tmp s) -> exists o, veval (s_tmp s) t = Ok o).
  { intros t U1 U2. destruct (falls_exists _ _ _ _ _ _ _ _ HG _ t A1 Hne U1 U2) as (pre & x & post & F).
    rewrite (veval_falls _ _ _ _ _ _ _ _ _ F). eauto. }
  destruct (Q t1 T1 (Qcle_trans _ _ _ T2 T3)) as (o1 & E1).
  destruct (Q t2 (Qcle_trans _ _ _ T1 T2) T3) as (o2 & E2).
  rewrite E1, E2. cbn [bind]. destruct o1 as [q1|]; [|auto]. destruct o2 as [q2|]; [|auto].
  pose proof (assembled_spec input q0 q3 (s_tmp s) t1 t2 q1 q2 A Hne T1 T2 T3 E1 E2) as X.
  unfold assembled in X.
  assert (Y : match match bind (add_part (s_tmp s) [] (steer q0 q1) 0 t1) (fun r =>
                          bind (add_part (s_tmp s) r (steer q1 q2) t1 t2) (fun r =>
                          add_part (s_tmp s) r (steer q2 q3) t2 (vlen (s_tmp s)))) with
              | Ok r => ShortcutModel.compare C P init fin dist n s r
              | Throw => Ok (give_up P s)
              | UB => UB
              | Fuel => Fuel
              end with
              | Ok s' => inv n input q0 q3 s' /\ (s' = fail P s \/ s' = give_up P s \/ improved n s s')
              | Throw => False
              | _ => ~ cut_defined rng cut G
              end).
  { destruct (bind (add_part (s_tmp s) [] (steer q0 q1) 0 t1) _) as [r| | |]; auto.
    destruct X as (X1 & X2).
    destruct (compare_spec n input q0 q3 s r Hn HI X1 X2) as (s' & -> & I' & O). split; [exact I'|]. tauto. }
  destruct (steer q0 q1), (steer q1 q2), (steer q2 q3); auto.
Qed.

Lemma loop_spec input q0 q3 n : (0 < n)%nat -> forall fuel k s, inv n input q0 q3 s ->
  match loop fuel n q0 q3 k s with
  | Ok s' => inv n input q0 q3 s'
  | Throw => False
  | UB => ~ cut_defined rng cut G
  | Fuel => True
  end.
Proof.
  intros Hn. induction fuel as [|f IH]; intros k s HI; cbn [ShortcutModel.loop]; [exact I|].
  destruct (stop k || s_fin s || (s_err s =? 0)%nat); [exact HI|].
  pose proof (body_spec n input q0 q3 k s Hn HI) as B.
  destruct (body n q0 q3 k s) as [s'| | |]; cbn [bind]; auto. apply IH, B.
Qed.

Lemma deque_init m x : deque (S m) (repeat None m ++ [Some x]) x.
Proof.
  repeat split.
  - rewrite app_length, repeat_length. cbn. lia.
  - induction m as [|m IH]; cbn [repeat app]; [repeat constructor|].
    constructor; [exact IH|]. apply Forall_forall. intros; exact I.
  - eauto.
Qed.

Lemma inv_init m path q0 q3 : Forall G path -> path <> [] -> chained q0 path q3 ->
  inv (S m) path q0 q3 (mkS path (repeat None m ++ [Some (dlen path)]) (S m) None false).
Proof.
  intros A B D. split; cbn [s_tmp s_len s_res].
  - split; [exact A|]. split; [exact D|]. apply Forall_forall. intros p. apply piece_input.
  - split; [exact B|]. split; [left; reflexivity|]. rewrite dlen_cost. split; [apply deque_init|reflexivity].
Qed.

Lemma ends_of path q0 q3 : path <> [] -> chained q0 path q3 ->
  vinit init path = Ok q0 /\ vfin fin path = Ok q3.
Proof.
  intros Hne H. split.
  - destruct path; [contradiction|]. destruct H as (<- & _). reflexivity.
  - unfold vfin. destruct (exists_last Hne) as (m & x & ->). rewrite rev_app_distr. cbn [rev app].
    apply chained_app in H. destruct H as (y & _ & H). cbn in H. destruct H as (_ & ->). reflexivity.
Qed.

Theorem optimize_spec fuel n path q0 q3 : Forall G path -> path <> [] -> chained q0 path q3 -> (0 < n)%nat ->
  match optimize fuel n path with
  | Ok r => Forall G r /\ chained q0 r q3 /\ Forall (piece path) r /\ r <> [] /\ (r = path \/ cost r < cost path)
  | Throw => False
  | UB => ~ cut_defined rng cut G
  | Fuel => True
  end.
Proof.
  intros A B D Hn. unfold ShortcutModel.optimize.
  destruct (ends_of _ _ _ B D) as (-> & ->). cbn [bind]. destruct n as [|m]; [lia|].
  pose proof (loop_spec path q0 q3 (S m) Hn fuel 0 _ (inv_init m path q0 q3 A B D)) as L.
  destruct (loop fuel (S m) q0 q3 0 _) as [s| | |]; cbn [bind]; auto.
  destruct L as ((L1 & L2 & L3) & L4 & L5 & _ & L6).
  assert (R : match s_res s with None => path | Some r => r end = s_tmp s)
    by (destruct (s_res s); congruence).
  rewrite R. repeat split; auto.
Qed.

(* ---------------------------------------------------------------- *)
(* termination *)
Hypothesis HM : metric dist.

Lemma chained_cost q l q' : chained q l q' -> dist q q' <= cost l.
Proof.
  destruct HM as (Z & T). revert q. induction l as [|p l IH]; intros q; cbn [VecSpec.chained VecSpec.cost].
  - intros ->. rewrite Z. apply Qcle_refl.
  - intros (<- & H). eapply Qcle_trans; [apply (T _ (fin p))|]. specialize (IH _ H). qc.
Qed.

(* number of infinite entries, and sum of the others *)
Fixpoint ninf (d : list (option Qc)) : nat :=
  match d with [] => 0%nat | None :: r => S (ninf r) | Some _ :: r => ninf r end.
Fixpoint dsum (d : list (option Qc)) : Qc :=
  match d with [] => 0 | None :: r => dsum r | Some x :: r => x + dsum r end.
Lemma ninf_app d x : ninf (d ++ [Some x]) = ninf d.
Proof. induction d as [|[y|] d IH]; cbn [app ninf]; auto. Qed.
Lemma dsum_app d x : dsum (d ++ [Some x]) = dsum d + x.
Proof. induction d as [|[y|] d IH]; cbn [app dsum]; [qc| |]; rewrite IH; qc. Qed.
Lemma dsum_nonneg n d cur : 0 <= cur -> deque n d cur -> 0 <= dsum d.
Proof.
  intros H (_ & S & d' & E). revert d' E. induction d as [|x d IH]; intros d' E; cbn [dsum]; [apply Qcle_refl|].
  destruct d' as [|y d'].
  - injection E as -> ->. cbn [dsum]. qc.
  - injection E as -> E. inversion S as [|? ? S1 S2]; subst. specialize (IH S1 d' eq_refl).
    destruct y as [y|]; [|exact IH].
    rewrite Forall_forall in S2. specialize (S2 (Some cur) (in_elt _ _ _)).
    cbn in S2. qc.
Qed.

Definition eps : Qc := Q2Qc (1 # 10000).

(* Every improvement that does not end the loop removes an infinity, or
   decreases the sum of the deque by eps * dist q0 q3. *)
Lemma improved_measure n input q0 q3 s s' : (0 < n)%nat -> inv n input q0 q3 s -> inv n input q0 q3 s' ->
  improved n s s' -> s_fin s' = false ->
  (ninf (s_len s') < ninf (s_len s))%nat \/
  (ninf (s_len s') = ninf (s_len s) /\ dsum (s_len s') <= dsum (s_len s) - eps * dist q0 q3).
Proof.
  intros Hn (_ & _ & _ & D & _) ((_ & Ch & _) & _ & _ & D' & _) (I1 & I2 & I3 & I4) Hf.
  specialize (I4 Hf). pose proof (chained_cost _ _ _ Ch) as Lb.
  set (c' := cost (s_tmp s')) in *. set (c := cost (s_tmp s)) in *.
  pose proof D as (L & So & d' & E).
  destruct (s_len s) as [|x d] eqn:Ed; [cbn in L; lia|].
  cbn [app tl] in I3. rewrite I3 in *. rewrite ninf_app, dsum_app.
  destruct x as [x|]; cbn [ninf dsum]; [|left; lia]. right. split; [reflexivity|].
  assert (Q : exists f, nth_error (d ++ [Some c']) 0 = Some (Some f) /\ f <= x).
  { destruct d as [|y d]; cbn [app nth_error].
    - exists c'. split; [reflexivity|]. destruct d' as [|? [|? ?]]; try discriminate.
      injection E as ->. apply Qclt_le_weak. exact I1.
    - inversion So as [|? ? S1 S2]; subst. inversion S2 as [|? ? S3 S4]; subst.
      destruct y as [y|]; [|contradiction]. exists y. split; [reflexivity|exact S3]. }
  destruct Q as (f & Q1 & Q2). specialize (I4 _ Q1).
  assert (eps * dist q0 q3 <= eps * c').
  { rewrite !(Qcmult_comm eps). apply Qcmult_le_compat_r; [exact Lb|discriminate]. }
  fold eps in I4. qc.
Qed.

Definition qn (n : nat) : Qc := Q2Qc (inject_Z (Z.of_nat n)).
Lemma qn_S n : qn (S n) = qn n + 1.
Proof.
  unfold qn. rewrite Nat2Z.inj_succ. unfold Z.succ. rewrite inject_Z_plus. apply Qc_is_canon.
  unfold Qcplus, Q2Qc. cbn [this]. rewrite !Qred_correct. reflexivity.
Qed.
Lemma qn_0 : qn 0 = 0.
Proof. reflexivity. Qed.
Lemma qn_nonneg n : 0 <= qn n.
Proof. induction n as [|n IH]; [apply Qcle_refl|]. rewrite qn_S. qc. Qed.
Lemma qn_mono a b : (a <= b)%nat -> qn a <= qn b.
Proof.
  induction 1 as [|b H IH]; [apply Qcle_refl|]. rewrite qn_S. qc.
Qed.

(* the finite entries are at most the length of the input *)
Definition below (L : Qc) (d : list (option Qc)) : Prop :=
  Forall (fun o => match o with None => True | Some x => x <= L end) d.
Lemma dsum_below L d : 0 <= L -> below L d -> dsum d <= qn (length d) * L.
Proof.
  intros H. induction 1 as [|x d Hx Hd IH]; cbn [dsum length]; [rewrite qn_0; qc|].
  rewrite qn_S. replace ((qn (length d) + 1) * L) with (qn (length d) * L + L) by ring.
  destruct x as [x|]; qc.
Qed.
Lemma ninf_le d : (ninf d <= length d)%nat.
Proof. induction d as [|[x|] d IH]; cbn [ninf length]; lia. Qed.

Lemma loop_terminates input q0 q3 n J : (0 < n)%nat -> 0 < dist q0 q3 ->
  qn n * cost input <= qn J * (eps * dist q0 q3) ->
  forall fuel i j e k s, inv n input q0 q3 s -> below (cost input) (s_len s) ->
  (ninf (s_len s) <= i)%nat -> dsum (s_len s) <= qn j * (eps * dist q0 q3) -> (s_err s <= e)%nat ->
  (e + (i * (J + 1) + j) * (n + 1) < fuel)%nat ->
  cut_defined rng cut G ->
  exists s', loop fuel n q0 q3 k s = Ok s'.
Proof.
  intros Hn Hd HJ. induction fuel as [|f IH]; intros i j e k s HI HB Hi Hj He HF HC; [lia|].
  cbn [ShortcutModel.loop].
  destruct (stop k || s_fin s || (s_err s =? 0)%nat) eqn:Q; [eauto|].
  apply orb_false_iff in Q. destruct Q as [Q Q3]. apply orb_false_iff in Q. destruct Q as [_ Q2].
  apply Nat.eqb_neq in Q3.
  pose proof (body_spec n input q0 q3 k s Hn HI) as B.
  destruct (body n q0 q3 k s) as [s'| | |]; cbn [bind]; [|contradiction|exfalso; auto|exfalso; auto].
  destruct B as (I' & [->|[->|Im]]).
  - apply (IH i j (e - 1)%nat); auto; cbn [fail s_len s_err]; [lia|lia].
  - apply (IH i j (e - 1)%nat); auto; cbn [give_up s_len s_err]; [lia|lia].
  - destruct (s_fin s') eqn:Ef.
    + destruct f as [|f]; [lia|]. cbn [ShortcutModel.loop]. rewrite Ef, orb_true_r. cbn [orb]. eauto.
    + pose proof (improved_measure n input q0 q3 s s' Hn HI I' Im Ef) as M.
      pose proof I' as ((_ & Ch & _) & _ & _ & D' & _).
      pose proof (chained_cost _ _ _ Ch) as Lc.
      assert (Hep : 0 < eps * dist q0 q3).
      { replace 0 with (0 * dist q0 q3) by qc. apply Qcmult_lt_compat_r; [exact Hd|reflexivity]. }
      assert (N0 : 0 <= dsum (s_len s')) by (eapply dsum_nonneg; [|exact D']; qc).
      assert (HB' : below (cost input) (s_len s')).
      { destruct Im as (_ & _ & E & _). rewrite E.
        assert (X : below (cost input) (s_len s ++ [Some (cost (s_tmp s'))])).
        { apply Forall_app. split; [exact HB|]. constructor; [|constructor].
          destruct I' as (_ & _ & [->|K] & _); [apply Qcle_refl|apply Qclt_le_weak; exact K]. }
        destruct (s_len s ++ _); [constructor|]. inversion X; assumption. }
      assert (He' : s_err s' = n) by apply Im.
      assert (L0 : 0 <= cost input).
      { destruct I' as (_ & _ & [K|K] & _); [rewrite <- K|]; qc. }
      destruct M as [M|(M1 & M2)].
      * destruct i as [|i]; [lia|].
        apply (IH i J n); auto; [lia| |lia|].
        -- eapply Qcle_trans; [apply dsum_below; [exact L0|exact HB']|].
           destruct D' as (-> & _). exact HJ.
        -- nia.
      * destruct j as [|j].
        -- exfalso. rewrite qn_0 in Hj. apply (Qclt_not_le _ _ Hep).
           replace (0 * (eps * dist q0 q3)) with 0 in Hj by ring. qc.
        -- apply (IH i j n); auto; [lia| |lia|].
           ++ rewrite qn_S in Hj.
              replace ((qn j + 1) * (eps * dist q0 q3)) with (qn j * (eps * dist q0 q3) + eps * dist q0 q3) in Hj by ring.
              qc.
           ++ nia.
Qed.

Theorem optimize_terminates n path q0 q3 J fuel : Forall G path -> path <> [] -> chained q0 path q3 ->
  (0 < n)%nat -> 0 < dist q0 q3 -> cut_defined rng cut G ->
  qn n * cost path <= qn J * (eps * dist q0 q3) ->
  (n + (n * (J + 1) + J) * (n + 1) < fuel)%nat ->
  exists r, optimize fuel n path = Ok r.
Proof.
  intros A B D Hn Hd HC HJ HF. unfold ShortcutModel.optimize.
  destruct (ends_of _ _ _ B D) as (-> & ->). cbn [bind]. destruct n as [|m]; [lia|].
  pose proof (chained_cost _ _ _ D) as Lc.
  assert (L0 : 0 <= cost path) by qc.
  assert (HB : below (cost path) (repeat None m ++ [Some (dlen path)])).
  { apply Forall_app. split.
    - apply Forall_forall. intros x Hx. apply repeat_spec in Hx. subst x. exact I.
    - constructor; [rewrite dlen_cost; apply Qcle_refl|constructor]. }
  pose proof (inv_init m path q0 q3 A B D) as HI.
  assert (LL : length (repeat (@None Qc) m ++ [Some (dlen path)]) = S m)
    by (rewrite app_length, repeat_length; cbn; lia).
  destruct (loop_terminates path q0 q3 (S m) J Hn Hd HJ fuel (S m) J (S m) 0%nat _ HI HB) as (s' & ->); cbn [s_len s_err]; auto.
  - rewrite <- LL at 1. apply ninf_le.
  - eapply Qcle_trans; [apply dsum_below; [exact L0|exact HB]|]. rewrite LL. exact HJ.
  - cbn [bind]. eauto.
Qed.

End Proofs.
