(* In exact arithmetic the dual method ends. *)
From Coq Require Import Reals Lra Lia Arith List Bool.
From Verif Require Import Base XReal SplineModel SplineProofs LinConsModel LinConsSpec LinConsProofs LinConsProofs2 GiModel GiSpec GiProofs GiProofs2 GiProofs3 GiProofs4.
Import ListNotations.
Open Scope R_scope.

Fixpoint allb (m : nat) : list (list bool) :=
  match m with O => [[]] | S m => map (cons true) (allb m) ++ map (cons false) (allb m) end.
Lemma allb_in m : forall l, length l = m -> In l (allb m).
Proof.
  induction m as [|m IH]; intros l H; cbn [allb].
  - destruct l; [left; reflexivity|discriminate].
  - destruct l as [|b l]; [discriminate|]. injection H as H. apply in_or_app.
    destruct b; [left|right]; apply in_map, IH, H.
Qed.

Section Ends.
Variables (n p m : nat) (c1 c2 : R) (G H0 : mat) (g : vec) (ceJ ciJ : mat) (ceb cib : vec).
Hypothesis GH : forall i l, (i < n)%nat -> (l < n)%nat -> rsum (fun k => G i k * H0 k l) n = mid i l.
Hypothesis Gsym : symmetric n G.
Hypothesis Gpsd : psd n G.
Notation nrm := (nrm p ceJ ciJ).
Notation rh := (rh p ceb cib).
Notation core := (core n p m G H0 g ceJ ciJ ceb cib).
Notation inv := (inv n p m G H0 g ceJ ciJ ceb cib).
Notation inv1 := (inv1 n p m G H0 g ceJ ciJ ceb cib).
Notation inv3 := (inv3 n p m G H0 g ceJ ciJ ceb cib).
Notation goes := (goes n p m G H0 g ceJ ciJ ceb cib).
Notation cost := (cost n G g).
Notation run := (run n p m 0 c1 ciJ cib).

(* the point minimises the cost over the active constraints *)
Lemma kkt_active st y : core st (giq st) -> (forall k, (k < giq st)%nat -> dot n (nrm (gA st) k) y = rh (gA st) k) ->
  cost (gx st) <= cost y.
Proof.
  intros HC Y. pose proof (cost_move n G g Gsym (gx st) (fun k => y k - gx st k) 1 _ (fun _ _ => Logic.I) eq_refl) as E.
  assert (Ey : cost (fun k => gx st k + 1 * (y k - gx st k)) = cost y).
  { unfold GiSpec.cost. rewrite !(dot_ext n (fun k => gx st k + 1 * (y k - gx st k)) _ y (mv n G y));
      try (intros k _; ring); [|intros k _; apply mv_ext; intros j _; ring].
    f_equal. apply dot_ext; intros k _; [reflexivity|ring]. }
  cbv beta in E. rewrite Ey in E. rewrite E. pose proof (Gpsd (fun k => y k - gx st k)).
  enough (0 = dot n (fun i => mv n G (gx st) i + g i) (fun k => y k - gx st k)) by lra.
  rewrite (dot_ext n _ (fun k => y k - gx st k) (fun i => rsum (fun k => gu st k * nrm (gA st) k i) (giq st)) (fun k => y k - gx st k));
    [|intros i Hi; apply (k_stat _ _ _ _ _ _ _ _ _ _ _ _ HC i Hi)|intros i _; reflexivity].
  rewrite dot_rsum. symmetry. apply rsum_zero. intros k Hk. rewrite (dot_minus_r n y (gx st)), Y by exact Hk.
  rewrite (k_act _ _ _ _ _ _ _ _ _ _ _ _ HC k Hk). ring.
Qed.

Definition chi (st : gi) : list bool := map (fun i => existsb (fun k => (gA st k =? i)%nat) (seq p (giq st - p))) (seq 0 m).
Lemma chi_cost st st' : core st (giq st) -> core st' (giq st') -> chi st = chi st' -> cost (gx st) <= cost (gx st').
Proof.
  intros HC HC' E. apply kkt_active; [exact HC|]. intros k Hk. unfold GiProofs3.nrm, GiProofs3.rh.
  destruct (Nat.ltb_spec k p) as [L|L].
  - apply (act_eq n p m G H0 g ceJ ciJ ceb cib _ _ k HC' L).
  - pose proof (k_A _ _ _ _ _ _ _ _ _ _ _ _ HC k ltac:(lia)) as Hm.
    assert (X : existsb (fun k' => (gA st' k' =? gA st k)%nat) (seq p (giq st' - p)) = true).
    { unfold chi in E. assert (Y := f_equal (fun l => nth (gA st k) l false) E). cbv beta in Y.
      pose proof (fun s => map_nth (fun i => existsb (fun k => (gA s k =? i)%nat) (seq p (giq s - p))) (seq 0 m) 0%nat (gA st k)) as N.
      rewrite !(nth_indep _ false (existsb (fun k => (gA st k =? 0)%nat) (seq p (giq st - p)))) in Y by (rewrite map_length, seq_length; exact Hm).
      rewrite N in Y.
      rewrite (nth_indep _ (existsb (fun k => (gA st k =? 0)%nat) (seq p (giq st - p))) (existsb (fun k => (gA st' k =? 0)%nat) (seq p (giq st' - p)))) in Y by (rewrite map_length, seq_length; exact Hm).
      rewrite N in Y. rewrite !seq_nth in Y by exact Hm. cbn [Nat.add] in Y. rewrite <- Y. apply existsb_exists.
      exists k. split; [apply in_seq; lia|apply Nat.eqb_refl]. }
    apply existsb_exists in X. destruct X as (k' & K1 & K2). apply in_seq in K1. apply Nat.eqb_eq in K2.
    pose proof (k_p _ _ _ _ _ _ _ _ _ _ _ _ HC') as Hp'.
    pose proof (act_in n p m G H0 g ceJ ciJ ceb cib _ _ k' HC' ltac:(lia)) as Z. rewrite K2 in Z. unfold slack in Z. lra.
Qed.

(* a jump from l2a drops a constraint or increases the cost *)
Lemma l2a_next f l' f' : inv3 f -> at_l2a n p m 0 ciJ cib f = Ok (Next l' f') ->
  (l' = L2a /\ (giq (fst_ f') < giq (fst_ f))%nat /\ gf (fst_ f) <= gf (fst_ f')) \/ (l' = L1 /\ gf (fst_ f) < gf (fst_ f')).
Proof.
  intros (HC & HK & Aip & Him & Hs & Hneg). unfold at_l2a. cbv zeta.
  set (st := fst_ f) in *. set (iq := giq st) in *. set (ip := fip f) in *.
  set (np := ciJ ip). set (d := compute_d n (gJ st) np). set (z := update_z n (gJ st) d iq). set (r := update_r (gR st) d iq).
  set (moved := fun t k => if (k <? iq)%nat then gu st k - t * r k else if (k =? iq)%nat then gu st k + t else gu st k).
  pose proof (k_fact _ _ _ _ _ _ _ _ _ _ _ _ HC) as F. pose proof (k_p _ _ _ _ _ _ _ _ _ _ _ _ HC) as Fp.
  pose proof (k_dual _ _ _ _ _ _ _ _ _ _ _ _ HC) as Fd. fold iq in F, Fp, Fd.
  destruct (partial_step (gA st) (gu st) r p (iq - p) None 0) as [t1 l] eqn:Et. apply partial_step_spec in Et. destruct Et as [Et1 Et2].
  assert (T1 : forall t, t1 = Some t -> 0 <= t /\ (p < iq)%nat).
  { intros t Ht. destruct (Et2 t Ht) as (X1 & _ & _). destruct X1 as [[X1 _]|(j & J1 & J2 & J3 & J4)]; [discriminate|].
    split; [rewrite J3; apply Rmult_le_pos; [apply Fd; lia|left; apply Rinv_0_lt_compat, J2]|lia]. }
  pose proof (Fd iq ltac:(lia)) as Uq.
  destruct (rltb 0 (Rabs (dot n z z))) eqn:Ez.
  - pose proof (zz_pos n (gJ st) iq np) as Zp. fold d z in Zp. specialize (Zp Ez).
    pose proof (iq_lt n (gJ st) iq np) as Lq. fold d z in Lq. specialize (Lq Zp).
    set (b := - fs f ip / dot n z np).
    assert (Bp : 0 < b) by (unfold b; apply Rdiv_lt_0_compat; lra).
    pose proof (min_some t1 b) as Hm. cbv zeta in Hm.
    set (t := match t1 with Some a => if rltb b a then b else a | None => b end) in *.
    enough (E : 
       (if reqb t b then
          match add_constraint n 0 (gR st) (gJ st) d iq (gRn st) with
          | Ok (true, R', J', Rn') =>
            Ok (Next L1 (mkFull (mkGi (fun k => gx st k + t * z k) (moved t) (gA st) (S iq) R' J' Rn' (gf st + t * dot n z np * (1 / 2 * t + gu st iq))) (fs f) (fss f) ip
              (updv (fiai f) ip false) (fex f) (fxo f) (fuo f) (fAo f)))
          | Ok (false, R', J', Rn') =>
            if (p + m <=? S iq)%nat then UB
            else match delete_constraint p R' J' (gA st) (moved t) (S iq) ip with
            | Ok (R'', J'', _, _) =>
              if ((0 <? p) && (0 <? iq))%nat%bool then UB
              else Ok (Next L2 (mkFull (mkGi (fxo f) (fuo f) (fAo f) iq R'' J'' Rn' (gf st + t * dot n z np * (1 / 2 * t + gu st iq))) (fs f) (fss f) ip
                (fun i => negb (existsb (fun k => (fAo f k =? i)%nat) (seq 0 iq))) (updv (fex f) ip false)
                (fxo f) (fuo f) (fAo f)))
            | Throw => Throw | UB => UB | Fuel => Fuel
            end
          | Throw => Throw | UB => UB | Fuel => Fuel
          end
        else
          match delete_constraint p (gR st) (gJ st) (gA st) (moved t) iq l with
          | Ok (R', J', A', u') =>
            Ok (Next L2a (mkFull (mkGi (fun k => gx st k + t * z k) u' A' (iq - 1) R' J' (gRn st) (gf st + t * dot n z np * (1 / 2 * t + gu st iq)))
              (updv (fs f) ip (dot n (ciJ ip) (fun k => gx st k + t * z k) + - cib ip)) (fss f) ip
              (updv (fiai f) l true) (fex f) (fxo f) (fuo f) (fAo f)))
          | Throw => Throw | UB => UB | Fuel => Fuel
          end) = Ok (Next l' f') ->
        (l' = L2a /\ (giq (fst_ f') < iq)%nat /\ gf st <= gf (fst_ f')) \/ (l' = L1 /\ gf st < gf (fst_ f')))
      by (clear - E; clearbody d z r; destruct t1; exact E).
    assert (Tp : 0 <= t).
    { destruct Hm as (_ & _ & [->|[X _]]); [lra|]. apply (T1 t X). }
    destruct (reqb t b) eqn:Eb; [apply reqb_t in Eb|apply reqb_f in Eb].
    + destruct (add_fact n H0 (gJ st) (gR st) iq (nrm (gA st)) np (gRn st) F Lq) as [_ B2]. fold d in B2.
      pose proof (z_np n (gJ st) iq np) as Ew. fold d z in Ew. rewrite <- Ew in B2.
      destruct (B2 ltac:(lra)) as (R' & J' & Rn' & Ea & Fact). rewrite Ea. intros [= <- <-]. right. split; [reflexivity|]. cbn [fst_ gf].
      assert (0 < t * dot n z np * (1 / 2 * t + gu st iq)); [|lra].
      apply Rmult_lt_0_compat; [apply Rmult_lt_0_compat; lra|lra].
    + destruct Hm as (_ & _ & [X|[X Lt]]); [contradiction|]. destruct (T1 t X) as (_ & Hlt).
      destruct (delete_constraint p (gR st) (gJ st) (gA st) (moved t) iq l) as [[[[R' J'] A'] u']| | |]; try discriminate.
      intros [= <- <-]. left. split; [reflexivity|]. cbn [fst_ giq gf]. split; [lia|].
      assert (0 <= t * dot n z np * (1 / 2 * t + gu st iq)); [|lra].
      apply Rmult_le_pos; [apply Rmult_le_pos; lra|lra].
  - destruct t1 as [t|]; [|discriminate]. destruct (T1 t eq_refl) as (_ & Hlt).
    destruct (delete_constraint p (gR st) (gJ st) (gA st) _ iq l) as [[[[R' J'] A'] u']| | |]; try discriminate.
    intros [= <- <-]. left. split; [reflexivity|]. cbn [fst_ giq gf]. split; [lia|lra].
Qed.

Definition ends (l : pc) (f : full) : Prop := exists fuel, run fuel c2 l f <> Fuel.
Lemma jump_ends l f : goes (jump n p m 0 c1 ciJ cib c2 l f) ->
  (forall l' f', jump n p m 0 c1 ciJ cib c2 l f = Ok (Next l' f') -> inv l' f' -> ends l' f') -> ends l f.
Proof.
  intros X H. destruct (jump n p m 0 c1 ciJ cib c2 l f) as [[s c st|l' f']| | |] eqn:E; try contradiction.
  - exists 1%nat. cbn [GiModel.run]. rewrite E. discriminate.
  - destruct (H l' f' eq_refl X) as [fuel Hf]. exists (S fuel). cbn [GiModel.run]. rewrite E. exact Hf.
Qed.
Lemma l2a_ends q : forall f, (giq (fst_ f) <= q)%nat -> inv3 f ->
  (forall f', inv1 f' -> gf (fst_ f) < gf (fst_ f') -> ends L1 f') -> ends L2a f.
Proof.
  induction q as [|q IH]; intros f Hq Hi H; (apply jump_ends; [apply (l2a_goes n p m G H0 g ceJ ciJ ceb cib GH Gsym f Hi)|]);
    intros l' f' E Hi'; cbn [jump] in E; destruct (l2a_next f l' f' Hi E) as [(-> & L & C)|(-> & C)].
  - lia.
  - apply H; assumption.
  - apply IH; [lia|exact Hi'|]. intros f'' Hi'' C'. apply H; [exact Hi''|lra].
  - apply H; assumption.
Qed.
Lemma l1_ends k : forall f seen, inv1 f -> NoDup seen -> (forall c, In c seen -> length c = m) ->
  (forall c st, In c seen -> core st (giq st) -> chi st = c -> cost (gx st) < gf (fst_ f)) ->
  (length (allb m) <= length seen + k)%nat -> ends L1 f.
Proof.
  induction k as [|k IH]; intros f seen Hi Hn Hl Hs Hk.
  - exfalso. destruct Hi as [HC _].
    assert (N : ~ In (chi (fst_ f)) seen).
    { intros X. specialize (Hs _ _ X HC eq_refl). rewrite (k_cost _ _ _ _ _ _ _ _ _ _ _ _ HC) in Hs. lra. }
    assert (I : (length (chi (fst_ f) :: seen) <= length (allb m))%nat).
    { apply NoDup_incl_length; [constructor; assumption|]. intros c [<-|Hc]; apply allb_in; [unfold chi; rewrite map_length, seq_length; reflexivity|apply Hl, Hc]. }
    cbn [length] in I. lia.
  - pose proof Hi as [HC _].
    assert (N : ~ In (chi (fst_ f)) seen).
    { intros X. specialize (Hs _ _ X HC eq_refl). rewrite (k_cost _ _ _ _ _ _ _ _ _ _ _ _ HC) in Hs. lra. }
    apply jump_ends; [apply (l1_goes n p m c1 c2 G H0 g ceJ ciJ ceb cib Gsym Gpsd f Hi)|]. intros l2 f2 E2 Hi2. cbn [jump] in E2.
    assert (X2 : l2 = L2 /\ fst_ f2 = fst_ f).
    { unfold at_l1 in E2. cbv zeta in E2. destruct (rleb _ _) in E2; [discriminate|]. injection E2 as <- <-. split; reflexivity. }
    destruct X2 as [-> X2]. apply jump_ends; [apply (l2_goes n p m G H0 g ceJ ciJ ceb cib Gsym Gpsd f2 Hi2)|]. intros l3 f3 E3 Hi3. cbn [jump] in E3.
    assert (X3 : l3 = L2a /\ gf (fst_ f3) = gf (fst_ f)).
    { unfold at_l2 in E3. cbv zeta in E3. destruct (choose _ _ _ _ _ _ _) as [ss ip] in E3. destruct (rleb _ _) in E3; [discriminate|].
      injection E3 as <- <-. cbn [fst_ gf]. rewrite X2. split; reflexivity. }
    destruct X3 as [-> X3]. apply (l2a_ends (giq (fst_ f3)) f3 (le_n _) Hi3). intros f' Hi' C. rewrite X3 in C.
    apply (IH f' (chi (fst_ f) :: seen) Hi').
    + constructor; assumption.
    + intros c [<-|Hc]; [unfold chi; rewrite map_length, seq_length; reflexivity|apply Hl, Hc].
    + intros c st [<-|Hc] Hst Ec.
      * pose proof (chi_cost st (fst_ f) Hst HC Ec) as Y. rewrite (k_cost _ _ _ _ _ _ _ _ _ _ _ _ HC) in C. lra.
      * specialize (Hs c st Hc Hst Ec). lra.
    + cbn [length]. lia.
Qed.
Lemma run_ends f : inv1 f -> ends L1 f.
Proof. intros H. apply (l1_ends (length (allb m)) f [] H); [constructor|intros c []|intros c st []|cbn [length]; lia]. Qed.
End Ends.

Lemma run_mono n p m eps c1 ciJ cib fuel k c2 : forall l f, run n p m eps c1 ciJ cib fuel c2 l f <> Fuel ->
  run n p m eps c1 ciJ cib (fuel + k) c2 l f = run n p m eps c1 ciJ cib fuel c2 l f.
Proof.
  induction fuel as [|fuel IH]; intros l f H; cbn [run Nat.add] in *; [contradiction|].
  destruct (jump n p m eps c1 ciJ cib c2 l f) as [[s c st|l' f']| | |]; try reflexivity. apply IH, H.
Qed.
(* from some number of jumps on, the answer is the same *)
Lemma quadprog_ends n p m c1 G g ceJ ciJ ceb cib J0 xu :
  symmetric n G -> psd n G -> cholesky n G g J0 xu -> (p <= n)%nat ->
  exists N s c st, good n p m G g ceJ ciJ ceb cib s c st /\
  forall fuel, (N <= fuel)%nat -> quadprog n p m 0 c1 ceJ ciJ ceb cib fuel J0 xu g = Ok (s, c, st).
Proof.
  intros Gs Gp Ch Hp. pose proof (proj1 Ch) as C1.
  assert (E : exists N, forall fuel, (N <= fuel)%nat ->
    quadprog n p m 0 c1 ceJ ciJ ceb cib fuel J0 xu g = quadprog n p m 0 c1 ceJ ciJ ceb cib N J0 xu g /\
    quadprog n p m 0 c1 ceJ ciJ ceb cib N J0 xu g <> Fuel).
  { unfold quadprog. cbv zeta.
    destruct (quadprog_start n p m G g ceJ ciJ ceb cib J0 xu Gs Ch Hp) as [(st & -> & Hi)|(st & -> & Dep)].
    - destruct (run_ends n p m c1 (c2_of n J0) G (gram n J0) g ceJ ciJ ceb cib C1 Gs Gp _ Hi) as [N HN].
      exists N. intros fuel Hf. split; [|exact HN]. replace fuel with (N + (fuel - N))%nat by lia. apply run_mono, HN.
    - exists 0%nat. intros fuel _. split; [reflexivity|discriminate]. }
  destruct E as [N E]. destruct (quadprog_good n p m c1 G g ceJ ciJ ceb cib J0 xu N Gs Gp Ch Hp) as [X|(s & c & st & X & Y)].
  - destruct (E N (le_n _)) as [_ Z]. contradiction.
  - exists N, s, c, st. split; [exact Y|]. intros fuel Hf. destruct (E fuel Hf) as [-> _]. exact X.
Qed.
