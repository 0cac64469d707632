(* C54: a parameter owns its value. *)
From Verif Require Import Base ParamModel ParamProps ParamHeapModel ParamHeapSpec.

Lemma hget_new h r a : hget (h ++ [Some r]) a = if Nat.eqb a (length h) then Some r else hget h a.
Proof.
  unfold hget. destruct (Nat.eqb_spec a (length h)) as [->|N].
  - rewrite nth_error_app2, Nat.sub_diag by lia; reflexivity.
  - destruct (Nat.lt_ge_cases a (length h)).
    + rewrite nth_error_app1 by lia; reflexivity.
    + rewrite (proj2 (nth_error_None h a)) by lia.
      rewrite (proj2 (nth_error_None _ a)); [reflexivity|]. rewrite app_length; cbn [length]; lia.
Qed.
Lemma hget_free h : forall a b, hget (hfree h a) b = if Nat.eqb b a then None else hget h b.
Proof.
  unfold hget; induction h as [|c h IH]; intros a b.
  - destruct a, b; cbn; try reflexivity. destruct (Nat.eqb b a); reflexivity.
  - destruct a as [|a], b as [|b]; cbn [hfree nth_error Nat.eqb]; try reflexivity. apply IH.
Qed.
Lemma hget_lt h a r : hget h a = Some r -> a < length h.
Proof.
  unfold hget. destruct (nth_error h a) eqn:E; [|discriminate].
  intros _; apply nth_error_Some; rewrite E; discriminate.
Qed.

(* place i of m holds the value s i *)
Definition holds (m : pmem) (s : store) (i : nat) : Prop :=
  match s i with
  | None => slot m i = None
  | Some PNone => slot m i = Some (mkP NONE None)
  | Some (PVal r) => exists a, slot m i = Some (mkP (raw_type r) (Some a)) /\ hget (hp m) a = Some r
  end.
Record hinv (m : pmem) (s : store) : Prop := {
  hi_holds : forall i, holds m s i;
  hi_owner : forall a, allocated m a -> exists i, owns m i a;
  hi_unique : forall i j a, owns m i a -> owns m j a -> i = j }.

Lemma hinv0 : hinv m0 s0.
Proof.
  split; intros.
  - reflexivity.
  - exfalso; apply H; unfold m0, hget; cbn; destruct a; reflexivity.
  - destruct H; discriminate.
Qed.
Lemma owns_alloc m s i a : hinv m s -> owns m i a -> allocated m a.
Proof.
  intros H [t E]. assert (X := hi_holds _ _ H i). unfold holds in X.
  destruct (s i) as [[|r]|].
  - rewrite X in E; discriminate.
  - destruct X as [b [X1 X2]]. rewrite X1 in E; inversion E; subst. unfold allocated; rewrite X2; discriminate.
  - rewrite X in E; discriminate.
Qed.
Lemma owns_lt m s i a : hinv m s -> owns m i a -> a < length (hp m).
Proof.
  intros H E. apply owns_alloc with (s := s) in E; [|exact H]. unfold allocated in E.
  destruct (hget (hp m) a) eqn:G; [|congruence]. eapply hget_lt; exact G.
Qed.

(* writing a new value at a place which owns nothing *)
Lemma put_new m s i r : hinv m s -> (forall a, ~ owns m i a) ->
  hinv (mkM (hp m ++ [Some r]) (upd (slot m) i (Some (mkP (raw_type r) (Some (length (hp m)))))))
       (upd s i (Some (PVal r))).
Proof.
  intros H HN. assert (HL := owns_lt m s). split.
  - intro j. unfold holds; cbn [hp slot]. unfold upd. destruct (Nat.eqb_spec j i) as [->|N].
    + eexists; split; [reflexivity|]. rewrite hget_new, Nat.eqb_refl; reflexivity.
    + assert (X := hi_holds _ _ H j). unfold holds in X. destruct (s j) as [[|r']|]; [exact X| |exact X].
      destruct X as [a [X1 X2]]. exists a; split; [exact X1|]. rewrite hget_new.
      destruct (Nat.eqb_spec a (length (hp m))); [|exact X2]. apply hget_lt in X2; lia.
  - intros a Ha. unfold allocated in Ha; cbn [hp] in Ha. rewrite hget_new in Ha.
    destruct (Nat.eqb_spec a (length (hp m))) as [E|N].
    + subst a; exists i, (raw_type r). cbn [slot]. unfold upd. rewrite Nat.eqb_refl; reflexivity.
    + destruct (hi_owner _ _ H a Ha) as [j Hj]. exists j. destruct Hj as [t Hj]. exists t. cbn [slot].
      unfold upd. destruct (Nat.eqb_spec j i) as [->|N2]; [|exact Hj]. exfalso; apply (HN a); exists t; exact Hj.
  - intros j k a [t1 H1] [t2 H2]; cbn [slot] in *. unfold upd in *.
    destruct (Nat.eqb_spec j i) as [->|N1], (Nat.eqb_spec k i) as [->|N2]; auto.
    + inversion H1; subst. exfalso. assert (X : owns m k (length (hp m))) by (exists t2; exact H2).
      apply (HL _ _ H) in X; lia.
    + inversion H2; subst. exfalso. assert (X : owns m j (length (hp m))) by (exists t1; exact H1).
      apply (HL _ _ H) in X; lia.
    + apply (hi_unique _ _ H j k a); [exists t1|exists t2]; assumption.
Qed.
(* writing the empty parameter, or nothing, at a place which owns nothing *)
Lemma put_none m s i (b : bool) : hinv m s -> (forall a, ~ owns m i a) ->
  hinv (mkM (hp m) (upd (slot m) i (if b then Some (mkP NONE None) else None)))
       (upd s i (if b then Some PNone else None)).
Proof.
  intros H HN. split.
  - intro j. unfold holds; cbn [hp slot]. unfold upd. destruct (Nat.eqb_spec j i) as [->|N].
    + destruct b; reflexivity.
    + apply (hi_holds _ _ H j).
  - intros a Ha. destruct (hi_owner _ _ H a Ha) as [j [t Hj]]. exists j, t. cbn [slot]. unfold upd.
    destruct (Nat.eqb_spec j i) as [->|N2]; [|exact Hj]. exfalso; apply (HN a); exists t; exact Hj.
  - intros j k a [t1 H1] [t2 H2]; cbn [slot] in *. unfold upd in *.
    destruct (Nat.eqb_spec j i) as [->|N1], (Nat.eqb_spec k i) as [->|N2]; auto.
    + destruct b; discriminate.
    + destruct b; discriminate.
    + apply (hi_unique _ _ H j k a); [exists t1|exists t2]; assumption.
Qed.
(* deleting the value of a live place leaves a place which owns nothing *)
Lemma delete_ok m s i o : hinv m s -> slot m i = Some o -> exists h,
  deleteValue (hp m) o = Ok h /\
  hinv (mkM h (upd (slot m) i None)) (upd s i None).
Proof.
  intros H E. assert (X := hi_holds _ _ H i). unfold holds in X.
  destruct (s i) as [[|r]|] eqn:S.
  - rewrite E in X; inversion X; subst. exists (hp m); split; [reflexivity|].
    apply put_none with (b := false); [exact H|]. intros a [t Ha]; rewrite E in Ha; discriminate.
  - destruct X as [a [X1 X2]]. rewrite E in X1; inversion X1; subst.
    exists (hfree (hp m) a). split.
    + unfold deleteValue, delete_as; cbn [otype ovalue]. destruct r; cbn [raw_type]; rewrite X2; reflexivity.
    + assert (HI : forall j, owns m j a -> j = i).
      { intros j Hj. apply (hi_unique _ _ H j i a Hj). exists (raw_type r); exact E. }
      split.
      * intro j. unfold holds; cbn [hp slot]. unfold upd. destruct (Nat.eqb_spec j i) as [->|N]; [reflexivity|].
        assert (Y := hi_holds _ _ H j). unfold holds in Y. destruct (s j) as [[|r']|]; [exact Y| |exact Y].
        destruct Y as [b [Y1 Y2]]. exists b; split; [exact Y1|]. rewrite hget_free.
        destruct (Nat.eqb_spec b a) as [->|]; [|exact Y2]. exfalso; apply N, HI. exists (raw_type r'); exact Y1.
      * intros b Hb. unfold allocated in Hb; cbn [hp] in Hb. rewrite hget_free in Hb.
        destruct (Nat.eqb_spec b a) as [E'|N]; [congruence|].
        destruct (hi_owner _ _ H b Hb) as [j [t Hj]]. exists j, t. cbn [slot]. unfold upd.
        destruct (Nat.eqb_spec j i) as [->|N2]; [|exact Hj]. rewrite E in Hj; inversion Hj; congruence.
      * intros j k b [t1 H1] [t2 H2]; cbn [slot] in *. unfold upd in *.
        destruct (Nat.eqb_spec j i) as [->|N1]; [discriminate|].
        destruct (Nat.eqb_spec k i) as [->|N2]; [discriminate|].
        apply (hi_unique _ _ H j k b); [exists t1|exists t2]; assumption.
  - rewrite E in X; discriminate.
Qed.

Lemma upd_upd {A} (f : nat -> A) i x y : forall j, upd (upd f i x) i y j = upd f i y j.
Proof. intro j; unfold upd; destruct (Nat.eqb j i); reflexivity. Qed.
Lemma hinv_ext m s m' s' : hinv m s -> hp m' = hp m -> (forall i, slot m' i = slot m i) ->
  (forall i, s' i = s i) -> hinv m' s'.
Proof.
  intros H E1 E2 E3. split.
  - intro i. assert (X := hi_holds _ _ H i). unfold holds in *. rewrite E1, E2, E3. exact X.
  - intros a Ha. unfold allocated in Ha. rewrite E1 in Ha.
    destruct (hi_owner _ _ H a Ha) as [j [t Hj]]. exists j, t. rewrite E2; exact Hj.
  - intros i j a [t1 H1] [t2 H2]. rewrite E2 in H1, H2.
    apply (hi_unique _ _ H i j a); [exists t1|exists t2]; assumption.
Qed.

(* copying the value of place j into a place i which owns nothing *)
Lemma copy_ok m s i j o : hinv m s -> slot m j = Some o -> (forall a, ~ owns m i a) -> exists h v,
  copyValue (hp m) o = Ok (h, v) /\
  hinv (mkM h (upd (slot m) i (Some (mkP (otype o) v)))) (upd s i (s j)).
Proof.
  intros H E HN. assert (X := hi_holds _ _ H j). unfold holds in X.
  destruct (s j) as [[|r]|] eqn:S.
  - rewrite E in X; inversion X; subst. exists (hp m), None; split; [reflexivity|].
    apply put_none with (b := true); assumption.
  - destruct X as [a [X1 X2]]. rewrite E in X1; inversion X1; subst.
    exists (hp m ++ [Some r]), (Some (length (hp m))). split.
    + unfold copyValue, read_as; cbn [otype ovalue]. destruct r; cbn [raw_type ptype_eqb]; rewrite X2; reflexivity.
    + apply put_new; assumption.
  - rewrite E in X; discriminate.
Qed.

(* a fresh place, used for temporaries: the temporary copy made and destroyed
   by operator= leaves the owned values alone *)
Lemma temp_ok m s i o : hinv m s -> slot m i = Some o -> exists h3 tmp h4,
  copyCtor (hp m) o = Ok (h3, tmp) /\ deleteValue h3 tmp = Ok h4 /\
  hinv (mkM h4 (slot m)) s.
Proof.
  intros H E. assert (X := hi_holds _ _ H i). unfold holds in X.
  destruct (s i) as [[|r]|] eqn:S.
  - rewrite E in X; inversion X; subst. exists (hp m), (mkP NONE None), (hp m).
    split; [reflexivity|]. split; [reflexivity|]. eapply hinv_ext; [exact H| | |]; reflexivity.
  - destruct X as [a [X1 X2]]. rewrite E in X1; inversion X1; subst.
    exists (hp m ++ [Some r]), (mkP (raw_type r) (Some (length (hp m)))), (hfree (hp m ++ [Some r]) (length (hp m))).
    split.
    { unfold copyCtor, copyValue, read_as; cbn [otype ovalue]. destruct r; cbn [raw_type ptype_eqb]; rewrite X2; reflexivity. }
    split.
    { unfold deleteValue, delete_as; cbn [otype ovalue]. destruct r; cbn [raw_type]; rewrite hget_new, Nat.eqb_refl; reflexivity. }
    assert (G : forall b, hget (hfree (hp m ++ [Some r]) (length (hp m))) b = hget (hp m) b).
    { intro b. rewrite hget_free, hget_new. destruct (Nat.eqb_spec b (length (hp m))) as [->|]; [|reflexivity].
      unfold hget. rewrite (proj2 (nth_error_None _ _)) by lia. reflexivity. }
    split.
    + intro j. assert (Y := hi_holds _ _ H j). unfold holds in *; cbn [hp slot].
      destruct (s j) as [[|r']|]; [exact Y| |exact Y].
      destruct Y as [b [Y1 Y2]]. exists b; split; [exact Y1|]. rewrite G; exact Y2.
    + intros b Hb. unfold allocated in Hb; cbn [hp] in Hb. rewrite G in Hb. apply (hi_owner _ _ H b Hb).
    + intros j k b Hj Hk. apply (hi_unique _ _ H j k b); [destruct Hj as [t Hj]|destruct Hk as [t Hk]];
        exists t; assumption.
  - rewrite E in X; discriminate.
Qed.

Lemma live_slot m s i : hinv m s -> s i <> None -> exists o, slot m i = Some o.
Proof.
  intros H E. assert (X := hi_holds _ _ H i). unfold holds in X.
  destruct (s i) as [[|r]|]; [eauto| |congruence]. destruct X as [a [X _]]; eauto.
Qed.
Lemma free_slot m s i : hinv m s -> s i = None -> slot m i = None.
Proof. intros H E. assert (X := hi_holds _ _ H i). unfold holds in X. rewrite E in X; exact X. Qed.

Lemma step_ok m s o : hinv m s -> lifetime_ok s o -> exists m', h_step m o = Ok m' /\ hinv m' (v_step s o).
Proof.
  intros H L. assert (NO : forall i, s i = None -> forall a, ~ owns m i a).
  { intros i Hi a [t Ha]. rewrite (free_slot _ _ _ H Hi) in Ha; discriminate. }
  destruct o as [i|i r|i j|i j|i]; cbn [lifetime_ok h_step v_step] in *.
  - eexists; split; [reflexivity|]. apply put_none with (b := true); auto.
  - eexists; split; [reflexivity|]. cbn [hnew]. apply put_new; auto.
  - destruct L as [L1 L2]. destruct (live_slot _ _ _ H L2) as [o Ho]. rewrite Ho.
    destruct (copy_ok m s i j o H Ho (NO i L1)) as [h [v [E1 E2]]].
    unfold copyCtor. rewrite E1; cbn [bind]. eexists; split; [reflexivity|]. exact E2.
  - destruct L as [L1 L2]. destruct (live_slot _ _ _ H L1) as [oi Hi].
    destruct (live_slot _ _ _ H L2) as [oj Hj]. unfold assign. rewrite Hi, Hj.
    destruct (Nat.eqb_spec j i) as [->|N].
    + cbn [bind]. rewrite Hi. destruct (temp_ok m s i oi H Hi) as [h3 [tmp [h4 [E1 [E2 E3]]]]].
      rewrite E1; cbn [bind]. rewrite E2; cbn [bind]. eexists; split; [reflexivity|].
      eapply hinv_ext; [exact E3| | |]; try reflexivity.
      intro k; unfold upd; destruct (Nat.eqb_spec k i) as [->|]; reflexivity.
    + destruct (delete_ok m s i oi H Hi) as [h1 [D1 D2]].
      assert (D0 : match ovalue oi with None => Ok (hp m) | Some _ => deleteValue (hp m) oi end = Ok h1).
      { destruct (ovalue oi) eqn:V; [exact D1|]. rewrite <- D1. unfold deleteValue, delete_as. rewrite V.
        destruct (otype oi); reflexivity. }
      rewrite D0; cbn [bind].
      assert (Hj' : slot (mkM h1 (upd (slot m) i None)) j = Some oj).
      { cbn [slot]. unfold upd. destruct (Nat.eqb_spec j i); [contradiction|exact Hj]. }
      destruct (copy_ok _ _ i j oj D2 Hj') as [h2 [v [C1 C2]]].
      { intros a [t Ha]; cbn [slot] in Ha. unfold upd in Ha; rewrite Nat.eqb_refl in Ha; discriminate. }
      cbn [hp slot] in C1, C2. rewrite C1; cbn [bind slot hp].
      assert (E : upd (slot m) i (Some (mkP (otype oj) v)) i = Some (mkP (otype oj) v)).
      { unfold upd; rewrite Nat.eqb_refl; reflexivity. }
      rewrite E.
      assert (C3 : hinv (mkM h2 (upd (slot m) i (Some (mkP (otype oj) v)))) (upd s i (s j))).
      { eapply hinv_ext; [exact C2| | |]; cbn [hp slot]; [reflexivity| |].
        - intro k; rewrite upd_upd; reflexivity.
        - intro k. rewrite upd_upd. unfold upd at 3. destruct (Nat.eqb_spec j i); [contradiction|]. reflexivity. }
      destruct (temp_ok _ _ i _ C3 E) as [h3 [tmp [h4 [E1 [E2 E3]]]]]. cbn [hp slot] in *.
      rewrite E1; cbn [bind]. rewrite E2; cbn [bind]. eexists; split; [reflexivity|]. exact E3.
  - destruct (live_slot _ _ _ H L) as [o Ho]. rewrite Ho.
    destruct (delete_ok m s i o H Ho) as [h [E1 E2]]. rewrite E1; cbn [bind].
    eexists; split; [reflexivity|]. exact E2.
Qed.
Lemma run_ok l : forall m s, hinv m s -> lifetimes_ok s l -> exists m', h_run m l = Ok m' /\ hinv m' (v_run s l).
Proof.
  induction l as [|o l IH]; intros m s H L.
  - exists m; split; [reflexivity|exact H].
  - destruct L as [L1 L2]. destruct (step_ok _ _ _ H L1) as [m1 [E1 H1]].
    destruct (IH _ _ H1 L2) as [m2 [E2 H2]]. exists m2. cbn [h_run]. rewrite E1; cbn [bind].
    split; [exact E2|exact H2].
Qed.

(* Whatever parameters are built, copied, assigned and destroyed, no value is
   freed twice, read after having been freed or through the wrong type, and
   each place reads as a value of its own. *)
Theorem C54_value_semantics : forall l, lifetimes_ok s0 l -> exists m, h_run m0 l = Ok m /\
  forall i p t, v_run s0 l i = Some p -> t <> NONE ->
    read m i t = match p with
                 | PVal r => if ptype_eqb (raw_type r) t then Ok r else Throw
                 | PNone => Throw
                 end.
Proof.
  intros l L. destruct (run_ok l _ _ hinv0 L) as [m [E H]]. exists m; split; [exact E|].
  intros i p t S NT. assert (X := hi_holds _ _ H i). unfold holds in X. rewrite S in X. unfold read.
  destruct p as [|r].
  - rewrite X. unfold read_as; cbn [otype ovalue]. destruct t; reflexivity || congruence.
  - destruct X as [a [X1 X2]]. rewrite X1. unfold read_as; cbn [otype ovalue].
    destruct (ptype_eqb (raw_type r) t) eqn:T; [|reflexivity]. rewrite X2, T; reflexivity.
Qed.

(* Each allocation which is left is the value of exactly one live parameter:
   nothing is leaked, nothing is shared. *)
Theorem C54_no_leak : forall l, lifetimes_ok s0 l -> exists m, h_run m0 l = Ok m /\
  forall a, allocated m a -> exists i, owns m i a /\ (exists r, v_run s0 l i = Some (PVal r)) /\
    forall j, owns m j a -> j = i.
Proof.
  intros l L. destruct (run_ok l _ _ hinv0 L) as [m [E H]]. exists m; split; [exact E|].
  intros a Ha. destruct (hi_owner _ _ H a Ha) as [i Hi]. exists i; split; [exact Hi|]. split.
  - assert (X := hi_holds _ _ H i). unfold holds in X. destruct Hi as [t Hi].
    destruct (v_run s0 l i) as [[|r]|]; [rewrite X in Hi; discriminate|eauto|rewrite X in Hi; discriminate].
  - intros j Hj. apply (hi_unique _ _ H j i a); assumption.
Qed.

Definition ex_hops : list hop :=
  [HNew 0 (RInt 4); HEmpty 1; HAssign 1 0; HCopy 2 1; HAssign 2 2; HNew 3 (RBool true);
   HAssign 0 3; HDestroy 3].
Example ex_hops_ok : lifetimes_ok s0 ex_hops.
Proof. cbn; repeat split; discriminate. Qed.
Example ex_hops_values :
  match h_run m0 ex_hops with
  | Ok m => read m 0 BOOL = Ok (RBool true) /\ read m 1 INT = Ok (RInt 4) /\ read m 2 INT = Ok (RInt 4) /\
            read m 0 INT = Throw /\ length (filter (fun c => match c with Some _ => true | None => false end) (hp m)) = 3
  | _ => False
  end.
Proof. vm_compute; auto 10. Qed.

Print Assumptions C54_value_semantics.
Print Assumptions C54_no_leak.
