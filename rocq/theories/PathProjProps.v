(* Property theorems for the path projectors (C37, C38, C39). *)
From Coq Require Import Lia.
From Verif Require Import Base QcTac VecSpec PathProjModel PathProjSpec PathProjProofs PathProjProofs2.
Open Scope Qc_scope.

Notation joins init fin := (chained (oinit _ _ init) (ofin _ _ init fin)).

(* ---------------------------------------------------------------- C37 *)
(* What the dichotomy projector returns is a contiguous chain starting at the
   initial configuration of the input; the junctions satisfy the constraints;
   the pieces are shorter than the maximal length, unless the input itself is
   returned.  When it succeeds, the chain goes to the end of the input. *)
Theorem C37_chain : forall C P (init fin : P -> C) start len ev cons steer maxl straight fuel p b o,
  steers init fin steer -> (forall k, cons p = Some k -> honest_apply k) ->
  dichotomy C P init fin start len ev cons steer maxl straight fuel p = Ok (b, o) ->
  exists k, cons p = Some k /\
  match o with
  | None => b = false
  | Some t =>
      (exists q', joins init fin (init p) (leaves t) q' /\ (b = true -> q' = fin p)) /\
      Forall (fun x => c_sat k (init p) (oinit C P init x) = true /\ c_sat k (init p) (ofin C P init fin x) = true) (leaves t) /\
      (t = L (Raw p) \/ Forall (fun x => olen C P len x < maxl) (leaves t))
  end.
Proof.
  intros C P init fin start len ev cons steer maxl straight fuel p b o HS HA E.
  destruct (dichotomy_spec init fin start len ev cons steer maxl straight HS fuel p b o HA E) as (k & Ek & K).
  exists k. split; [exact Ek|]. destruct o as [t|]; [|exact K]. destruct K as ((q' & K1) & K2 & K3 & K4).
  split; [|split; assumption]. destruct b; [exists (fin p)|exists q']; split; auto. discriminate.
Qed.
(* On a straight path with constraints it never crashes nor throws. *)
Theorem C37_defined : forall C P (init fin : P -> C) start len ev cons steer maxl straight fuel p k,
  steers init fin steer -> straight p = true -> cons p = Some k -> honest_apply k -> (forall a b, steer a b <> None) ->
  dichotomy C P init fin start len ev cons steer maxl straight fuel p <> UB /\
  dichotomy C P init fin start len ev cons steer maxl straight fuel p <> Throw.
Proof. intros. eapply dichotomy_defined; eassumption. Qed.
(* It terminates if every split shortens the path to split by at least some
   fixed amount: here after at most 2^(n+1) turns. *)
Theorem C37_terminates_partial : forall C P (init fin : P -> C) start len ev cons steer maxl straight delta n fuel p k,
  cons p = Some k -> 0 < delta ->
  (forall s q s1 s2, maxl <= len s -> c_apply k (init p) (ev s (start s + len s / (1 + 1))) = (true, q) ->
    steer (init s) q = Some s1 -> steer q (fin s) = Some s2 -> len s1 <= len s - delta /\ len s2 <= len s - delta) ->
  (forall a b, steer a b <> None) ->
  (forall s, steer (init p) (fin p) = Some s -> len s < maxl + nq delta n) -> (2 ^ (S n) <= fuel)%nat ->
  dichotomy C P init fin start len ev cons steer maxl straight fuel p <> Fuel.
Proof. intros. eapply dichotomy_terminates; eassumption. Qed.
(* A null pointer is dereferenced for a straight path without constraints. *)
Theorem C37_null_constraints_refuted : forall C P (init fin : P -> C) start len ev cons steer maxl straight fuel p,
  straight p = true -> cons p = None ->
  dichotomy C P init fin start len ev cons steer maxl straight fuel p = UB.
Proof. intros. unfold dichotomy. rewrite H, H0. reflexivity. Qed.

(* ---------------------------------------------------------------- C38 *)
(* What the progressive projector returns starts at the beginning of the input
   and, if it succeeds, goes to its end; it is the input itself when there is
   nothing to project, a motionless path, or a path whose way-points satisfy
   the constraints, in a bounded number, and not further apart than the step
   when no bound on the Hessian is given. *)
Theorem C38_waypoints : forall C P (init fin : P -> C) len ev cons dist steer rhs step thrmin eps hess fuel p b o,
  steers init fin steer -> (forall a b p, steer a b = Some p -> len p = dist a b) ->
  (forall a b, 0 <= dist a b) -> (forall a b, dist a b = 0 -> a = b) ->
  (forall k, cons p = Some k -> honest_apply k) ->
  progressive C P init fin len ev cons dist steer rhs step thrmin eps hess fuel p = Ok (b, o) ->
  (o = None /\ b = false /\ exists k, cons p = Some k /\ c_sat k rhs (fin p) = false) \/
  (exists x, o = Some (L x) /\ oinit C P init x = init p /\
    ((x = Raw p /\ b = true /\ (forall k, cons p = Some k -> c_cp k && c_dim k = false)) \/
     (x = Start p /\ b = false) \/
     (exists k mx, cons p = Some k /\ max_split P len step p = Some mx /\ (b = true -> ofin C P init fin x = fin p) /\
        Forall (fun q => c_sat k rhs q = true) (waypoints init fin x) /\
        (length (waypoints init fin x) <= mx + 3)%nat /\ (hess = None -> spaced dist step (waypoints init fin x))))).
Proof. intros. eapply progressive_spec; eassumption. Qed.
(* It stops after a number of splits bounded by ten times the length over the
   step. *)
Theorem C38_terminates : forall C P (init fin : P -> C) len ev cons dist steer rhs step thrmin eps hess fuel p,
  (forall mx, max_split P len step p = Some mx -> (mx + 2 <= fuel)%nat) ->
  progressive C P init fin len ev cons dist steer rhs step thrmin eps hess fuel p <> Fuel.
Proof. intros. apply progressive_fuel. assumption. Qed.

(* ---------------------------------------------------------------- C39 *)
(* The projection of a path vector is that of its sub-paths, in order, up to
   the first one that fails, included if it is the first or not motionless:
   for every projector of single paths which always writes a result. *)
Theorem C39_concatenation : forall C P len leaf (l : list (tree P)) prev b o,
  (forall p b, leaf p <> Ok (b, None)) ->
  papply C P len leaf (V l) prev = Ok (b, o) ->
  exists l1 l2 rs, l = l1 ++ l2 /\ Forall2 (fun x r => papply C P len leaf x None = Ok (true, Some r)) l1 rs /\
    ((b = true /\ l2 = [] /\ o = Some (V rs)) \/
     (b = false /\ exists x l3 r, l2 = x :: l3 /\ papply C P len leaf x None = Ok (false, Some r) /\
        o = Some (V (if qltb 0 (tlen C P len r) || (length l1 =? 0)%nat then rs ++ [r] else rs)))).
Proof.
  intros C P len leaf l prev b o W E. rewrite papply_V in E.
  apply vloop_spec in E as (l1 & l2 & rs & -> & F & D); [|intros p; apply W].
  exists l1, l2, rs. split; [reflexivity|]. split; [exact F|]. destruct D as [D|(-> & x & l3 & -> & D)]; [left; exact D|right].
  split; [reflexivity|]. destruct D as [(r & D1 & D2)|(D1 & _)]; [exists x, l3, r; auto|].
  exfalso. exact (papply_writes len leaf _ _ W D1).
Qed.
(* It is contiguous when the sub-projections are. *)
Theorem C39_contiguous : forall C P (init fin : P -> C) len leaf t q q' b r,
  (forall p b, leaf p <> Ok (b, None)) ->
  (forall p b t, leaf p = Ok (b, Some t) -> exists q', joins init fin (init p) (leaves t) q' /\ (b = true -> q' = fin p)) ->
  chained init fin q (leaves t) q' -> papply C P len leaf t None = Ok (b, Some r) ->
  exists qe, joins init fin q (leaves r) qe /\ (b = true -> qe = q').
Proof. intros. eapply papply_chain; eassumption. Qed.
(* A projector which writes nothing when it fails leaves in place the
   projection of the previous sub-path, which is then appended once more. *)
Theorem C39_stale_part : forall C P len leaf (l1 : list (tree P)) x r l3 b o,
  (forall p, leaf p <> Ok (true, None)) ->
  papply C P len leaf (V (l1 ++ x :: l3)) None = Ok (b, o) ->
  Forall (fun y => exists t, papply C P len leaf y None = Ok (true, Some t)) l1 ->
  papply C P len leaf (last l1 (V [])) None = Ok (true, Some r) -> l1 <> [] ->
  papply C P len leaf x None = Ok (false, None) -> 0 < tlen C P len r ->
  exists rs, b = false /\ o = Some (V (rs ++ [r; r])).
Proof.
  intros C P len leaf l1 x r l3 b o W E F1 EL NE Ex Lr. rewrite papply_V in E.
  apply vloop_spec in E as (m1 & m2 & rs & Em & F & D); [|exact W].
  assert (EM : m1 = l1).
  { clear EL NE Lr. revert l1 F1 Em. revert rs F D. revert m2. intros m2 rs F D l1 F1 Em.
    assert (S : forall (a c : list (tree P)) x y l3 l4, a ++ x :: l3 = c ++ y :: l4 ->
      Forall (fun y => exists t, papply C P len leaf y None = Ok (true, Some t)) a ->
      Forall (fun y => exists t, papply C P len leaf y None = Ok (true, Some t)) c ->
      (forall t, papply C P len leaf x None <> Ok (true, Some t)) -> (forall t, papply C P len leaf y None <> Ok (true, Some t)) -> c = a).
    { clear. induction a as [|z a IH]; intros [|z' c] x y l3 l4 E FA FC Nx Ny; cbn in E; injection E as E0 E1; subst.
      - reflexivity.
      - inversion FC as [|? ? (t & H) _]; subst. exfalso. exact (Nx _ H).
      - inversion FA as [|? ? (t & H) _]; subst. exfalso. exact (Ny _ H).
      - f_equal. inversion FA; inversion FC; subst. eapply IH; eassumption. }
    assert (FM : Forall (fun y => exists t, papply C P len leaf y None = Ok (true, Some t)) m1).
    { clear - F. induction F; constructor; eauto. }
    destruct D as [(_ & -> & _)|(_ & y & l4 & -> & D)].
    - rewrite app_nil_r in Em. exfalso. rewrite <- Em in FM. apply Forall_app in FM as (_ & FM).
      inversion FM as [|? ? (t & H) _]; subst. congruence.
    - eapply S; [exact Em|exact F1|exact FM|congruence|]. intros t H. destruct D as [(r' & D & _)|(D & _)]; congruence. }
  rewrite EM in *. apply app_inv_head in Em. clear F1.
  destruct D as [(_ & -> & _)|(-> & y & l4 & -> & D)]; [discriminate|]. injection Em as <- <-.
  destruct D as [(r' & D & _)|(_ & D)]; [congruence|].
  assert (exists rs0, rs = rs0 ++ [r]).
  { destruct (exists_last NE) as (l0 & z & ->). rewrite last_last in EL. apply Forall2_app_inv_l in F as (r0 & r1 & _ & F & ->).
    inversion F as [|? ? ? ? H1 H2]; subst. inversion H2; subst. exists r0. congruence. }
  destruct H as (rs0 & ->). exists rs0. split; [reflexivity|]. rewrite D. rewrite map_app. cbn [map]. rewrite last_last.
  destruct (qltb_spec 0 (tlen C P len r)) as [_|G]; [|exfalso; qc]. cbn [orb app]. rewrite <- app_assoc. reflexivity.
Qed.

(* ------------------------------------------------------------------ *)
(* Paths on a line at unit speed. *)
Definition qi (z : Z) : Qc := Q2Qc (inject_Z z).
Record lp := mkL { l_init : Qc; l_fin : Qc; l_cons : option (cset Qc) }.
Definition qabs (x : Qc) : Qc := if qleb 0 x then x else - x.
Definition l_dist (a b : Qc) : Qc := qabs (b - a).
Definition l_len (p : lp) : Qc := l_dist (l_init p) (l_fin p).
Definition l_ev (p : lp) (t : Qc) : Qc := if qleb (l_init p) (l_fin p) then l_init p + t else l_init p - t.
Definition l_steer (a b : Qc) : option lp := Some (mkL a b None).
Definition l_dich := dichotomy Qc lp l_init l_fin (fun _ => 0) l_len l_ev l_cons l_steer.
Definition l_prog := progressive Qc lp l_init l_fin l_len l_ev l_cons l_dist l_steer.
Lemma l_steers : steers l_init l_fin l_steer.
Proof. intros a b p E. injection E as <-. auto. Qed.

(* everything satisfies the constraints: the line is split in four *)
Definition k_all : cset Qc := mkC true true (fun _ _ => true) (fun _ q => (true, q)).
Definition four : lp := mkL 0 (qi 4) (Some k_all).
Lemma k_all_honest : honest_apply k_all. Proof. intros r q q' _. reflexivity. Qed.
Example C37_chain_ex : exists t, l_dich (1 + Q2Qc (1 # 2)) (fun _ => true) 9 four = Ok (true, Some t) /\
  map (oinit Qc lp l_init) (leaves t) = [0; qi 1; qi 2; qi 3].
Proof. eexists. split; vm_compute; reflexivity. Qed.
Lemma half_len s : l_len s - l_len s / (1 + 1) = l_len s / (1 + 1).
Proof. unfold Qcdiv. field. discriminate. Qed.
Example C37_terminates_partial_ex :
  (forall s q s1 s2, qi 1 <= l_len s -> c_apply k_all 0 (l_ev s (0 + l_len s / (1 + 1))) = (true, q) ->
    l_steer (l_init s) q = Some s1 -> l_steer q (l_fin s) = Some s2 ->
    l_len s1 <= l_len s - Q2Qc (1 # 2) /\ l_len s2 <= l_len s - Q2Qc (1 # 2)) /\
  (forall s, l_steer (l_init four) (l_fin four) = Some s -> l_len s < qi 1 + nq (Q2Qc (1 # 2)) 7).
Proof.
  split; [|intros s E; injection E as <-; vm_compute; reflexivity].
  intros s q s1 s2 G Ea E1 E2. cbn in Ea. injection Ea as <-. injection E1 as <-. injection E2 as <-.
  assert (Hh : qi 1 / (1 + 1) <= l_len s / (1 + 1)).
  { unfold Qcdiv. apply Qcmult_le_compat_r; [exact G|]. intros X. vm_compute in X. discriminate. }
  replace (qi 1 / (1 + 1)) with (Q2Qc (1 # 2)) in Hh by (apply Qc_is_canon; vm_compute; reflexivity).
  pose proof (half_len s) as HH. set (h := l_len s / (1 + 1)) in *.
  assert (K : l_len (mkL (l_init s) (l_ev s (0 + h)) None) = h /\ l_len (mkL (l_ev s (0 + h)) (l_fin s) None) = h).
  { unfold l_len, l_dist, qabs, l_ev in *. cbn [l_init l_fin] in *.
    assert (0 < h) by (eapply Qclt_le_trans; [|exact Hh]; reflexivity).
    qcase (l_init s) (l_fin s); qcase 0 (l_fin s - l_init s); split;
      match goal with |- (if qleb 0 ?x then _ else _) = _ => qcase 0 x end; qc. }
  destruct K as (-> & ->). split; qc.
Qed.

(* the configurations 0, 10 and 20 satisfy the constraints; from 5, the solver
   goes to 20 *)
Definition k_three : cset Qc :=
  let sat q := qeqb q 0 || qeqb q (qi 10) || qeqb q (qi 20) in
  mkC true true (fun _ q => sat q) (fun _ q => if qeqb q (qi 5) then (true, qi 20) else (sat q, q)).
Lemma k_three_honest : honest_apply k_three.
Proof.
  intros r q q'. unfold k_three. cbn [c_apply c_sat]. destruct (qeqb q (qi 5)).
  - intros E. injection E as <-. vm_compute. reflexivity.
  - intros E. injection E as E <-. exact E.
Qed.
Theorem C37_diverges_refuted : forall fuel,
  l_dich (qi 1) (fun _ => true) fuel (mkL 0 (qi 10) (Some k_three)) = Fuel.
Proof.
  intros fuel. unfold l_dich, dichotomy. cbn [l_cons l_init l_fin negb]. change (c_sat k_three 0 0) with true.
  change (c_sat k_three 0 (qi 10)) with true. cbn [negb orb c_cp c_dim k_three andb l_steer].
  assert (K : forall fuel st paths,
    dich_loop Qc lp l_init l_fin (fun _ => 0) l_len l_ev l_steer (qi 1) fuel 0 k_three (mkL 0 (qi 10) None :: st) paths = Fuel /\
    dich_loop Qc lp l_init l_fin (fun _ => 0) l_len l_ev l_steer (qi 1) fuel 0 k_three (mkL 0 (qi 20) None :: st) paths = Fuel).
  { induction fuel0 as [|f IH]; intros st paths; [split; reflexivity|]. split; cbn [dich_loop].
    - change (qltb (l_len (mkL 0 (qi 10) None)) (qi 1)) with false.
      change (c_apply k_three 0 (l_ev (mkL 0 (qi 10) None) (0 + l_len (mkL 0 (qi 10) None) / (1 + 1)))) with (true, qi 20).
      cbn [negb l_steer l_init l_fin]. change (qeqb (l_len (mkL (qi 20) (qi 10) None)) 0) with false.
      change (qeqb (l_len (mkL 0 (qi 20) None)) 0) with false. cbn [orb]. apply IH.
    - change (qltb (l_len (mkL 0 (qi 20) None)) (qi 1)) with false.
      change (c_apply k_three 0 (l_ev (mkL 0 (qi 20) None) (0 + l_len (mkL 0 (qi 20) None) / (1 + 1)))) with (true, qi 10).
      cbn [negb l_steer l_init l_fin]. change (qeqb (l_len (mkL (qi 10) (qi 20) None)) 0) with false.
      change (qeqb (l_len (mkL 0 (qi 10) None)) 0) with false. cbn [orb]. apply IH. }
  rewrite (proj1 (K fuel [] [])). reflexivity.
Qed.
(* nothing is returned when no configuration of the middle can be projected *)
Definition k_ends : cset Qc :=
  let sat q := qeqb q 0 || qeqb q (qi 10) in mkC true true (fun _ q => sat q) (fun _ q => (sat q, q)).
Theorem C37_nothing_returned_refuted :
  l_dich (qi 1) (fun _ => true) 5 (mkL 0 (qi 10) (Some k_ends)) = Ok (false, None).
Proof. vm_compute. reflexivity. Qed.

(* ---------------------------------------------------------------- *)
Example C38_waypoints_ex : exists x,
  l_prog 0 (qi 1 + Q2Qc (1 # 2)) mind (Q2Qc (1 # 1000000)) None 60 four = Ok (true, Some (L x)) /\
  length (waypoints l_init l_fin x) = 4%nat.
Proof. eexists. split; vm_compute; reflexivity. Qed.
Example C38_waypoints_ex2 : (forall a b p, l_steer a b = Some p -> l_len p = l_dist a b) /\
  (forall a b, 0 <= l_dist a b) /\ (forall a b, l_dist a b = 0 -> a = b).
Proof.
  split; [intros a b p E; injection E as <-; reflexivity|]. unfold l_dist, qabs.
  split; intros a b; qcase 0 (b - a); qc.
Qed.
Example C38_terminates_ex : max_split lp l_len (qi 1 + Q2Qc (1 # 2)) four = Some 26%nat.
Proof. vm_compute. reflexivity. Qed.
(* With a bound on the Hessian, the step is not taken into account: way-points
   4 apart for a step of 1. *)
Theorem C38_step_ignored_refuted : exists x,
  l_prog 0 (qi 1) mind (Q2Qc (1 # 1000000)) (Some (1, fun _ => qi 100)) 60 four = Ok (true, Some (L x)) /\
  waypoints l_init l_fin x = [0; qi 4].
Proof. eexists. split; vm_compute; reflexivity. Qed.
(* ---------------------------------------------------------------- *)
Definition two : tree lp := V [L four; L (mkL (qi 4) (qi 6) (Some k_all))].
Definition raw_leaf (p : lp) : res (bool * option (tree (out Qc lp))) := Ok (true, Some (L (Raw p))).
Example C39_contiguous_ex : (forall p b, raw_leaf p <> Ok (b, None)) /\
  (forall p b t, raw_leaf p = Ok (b, Some t) ->
    exists q', joins l_init l_fin (l_init p) (leaves t) q' /\ (b = true -> q' = l_fin p)) /\
  chained l_init l_fin 0 (leaves two) (qi 6) /\
  papply Qc lp l_len raw_leaf two None = Ok (true, Some (V [L (Raw four); L (Raw (mkL (qi 4) (qi 6) (Some k_all)))])).
Proof.
  split; [discriminate|]. split; [|split; [cbn; auto|vm_compute; reflexivity]].
  intros p b t E. injection E as <- <-. eexists. cbn. eauto.
Qed.
(* With the dichotomy projector: the second sub-path has an end out of the
   constraints, so that the first one, from 0 to 4, is returned twice. *)
Definition k_low : cset Qc :=
  let sat q := qleb q (qi 5) in mkC true true (fun _ q => sat q) (fun _ q => (sat q, q)).
Definition broken : tree lp := V [L (mkL 0 (qi 4) (Some k_low)); L (mkL (qi 4) (qi 6) (Some k_low))].
Theorem C39_duplicate_refuted : exists t,
  chained l_init l_fin 0 (leaves broken) (qi 6) /\
  papply Qc lp l_len (l_dich (qi 10) (fun _ => true) 9) broken None = Ok (false, Some t) /\
  map (oinit Qc lp l_init) (leaves t) = [0; 0] /\ map (ofin Qc lp l_init l_fin) (leaves t) = [qi 4; qi 4].
Proof. eexists. split; [cbn; auto|]. split; [vm_compute; reflexivity|]. split; vm_compute; reflexivity. Qed.
(* The same with the progressive projector. *)
Theorem C39_duplicate_progressive_refuted : exists t,
  papply Qc lp l_len (l_prog 0 (qi 10) mind (Q2Qc (1 # 1000000)) None 60) broken None = Ok (false, Some t) /\
  map (oinit Qc lp l_init) (leaves t) = [0; 0] /\ map (ofin Qc lp l_init l_fin) (leaves t) = [qi 4; qi 4].
Proof. eexists. split; [vm_compute; reflexivity|]. split; vm_compute; reflexivity. Qed.

Print Assumptions C37_chain.
Print Assumptions C37_defined.
Print Assumptions C37_terminates_partial.
Print Assumptions C37_null_constraints_refuted.
Print Assumptions C37_diverges_refuted.
Print Assumptions C37_nothing_returned_refuted.
Print Assumptions C38_waypoints.
Print Assumptions C38_terminates.
Print Assumptions C38_step_ignored_refuted.
Print Assumptions C39_concatenation.
Print Assumptions C39_contiguous.
Print Assumptions C39_stale_part.
Print Assumptions C39_duplicate_refuted.
Print Assumptions C39_duplicate_progressive_refuted.
