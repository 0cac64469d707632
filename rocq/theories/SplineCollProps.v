(* C112: the collision constraints given to the quadratic solver. *)
From Coq Require Import Reals List Arith Bool Lia Lra ClassicalDedekindReals Classical_Prop.
From Verif Require Import Base XReal SplineModel SplineProofs LinConsModel LinConsSpec LinConsProofs LinConsProofs2
  PolyProofs SplineOptModel SplineOptSpec SplineOptProofs SplineGradModel SplineGradSpec SplineGradProofs5.
Import ListNotations.
Open Scope R_scope.

Section Coll.
Context {Rep Fn : Type}.
Variable w : @sgb Rep Fn.
Notation cfn := (@cfn Fn).

(* row [cf_row c] of the constraint is the linearisation of c around x *)
Definition row_of (j : nat) (x : vec) (c : cfn) (coll : lincons) : Prop :=
  lc_J coll (cf_row c) = lin_row w j x c /\ lc_b coll (cf_row c) = Some (dot (w_size w) (lin_row w j x c) x).
(* the other rows are kept *)
Definition other_rows (r : nat) (coll coll' : lincons) : Prop :=
  forall i, i <> r -> lc_J coll' i = lc_J coll i /\ lc_b coll' i = lc_b coll i.

Lemma set_row_other r v b coll : other_rows r coll (lc_set_row r v b coll).
Proof.
  intros i Hi. cbn [lc_set_row lc_J lc_b]. destruct (Nat.eqb_spec i r); [contradiction|]. split; reflexivity.
Qed.
Lemma linearize1_inv j x c coll coll' : linearize1 w j x c coll = Ok coll' ->
  row_of j x c coll' /\ other_rows (cf_row c) coll coll' /\ lc_rows coll' = lc_rows coll /\ lc_cols coll' = lc_cols coll.
Proof.
  unfold linearize1. destruct (j <? length (g_ss w))%nat; [|discriminate]. intros H. injection H as <-.
  split; [|split; [apply set_row_other|split; reflexivity]].
  split; cbn [lc_set_row lc_J lc_b]; rewrite Nat.eqb_refl; reflexivity.
Qed.
Lemma find_loop_inv cs j x : forall k coll lcr fs c solved coll' lcr' fs' found,
  find_loop w cs j x k coll lcr fs c solved = Ok (coll', lcr', fs', found) ->
  row_of j x c coll -> (exists l0, lc_reduce (g_lu w) cs coll l0 true = Ok (lcr, solved)) ->
  if found then exists c', fs' = fs ++ [c'] /\ cf_id c' = cf_id c /\ cf_row c' = cf_row c /\ cf_ratio c' = cf_ratio c /\
       row_of j x c' coll' /\ other_rows (cf_row c) coll coll' /\ lc_rows coll' = lc_rows coll /\ lc_cols coll' = lc_cols coll /\
       exists l0, lc_reduce (g_lu w) cs coll' l0 true = Ok (lcr', true)
  else fs' = fs /\ lc_rows coll' = (lc_rows coll - 1)%nat /\ lc_rows lcr' = lc_rows coll.
Proof.
  induction k as [|k IH]; intros coll lcr fs c solved coll' lcr' fs' found H Hr (l0 & Hl); cbn [find_loop] in H; destruct solved.
  - injection H as <- <- <- <-. exists c. repeat split; try apply Hr; eauto.
  - injection H as <- <- <- <-. destruct (reduce_inv _ _ _ _ _ _ _ Hl) as (? & ? & ? & _ & _ & E & _).
    split; [reflexivity|]. split; [reflexivity|exact E].
  - injection H as <- <- <- <-. exists c. repeat split; try apply Hr; eauto.
  - destruct (linearize1 w j x _ coll) as [coll1| | |] eqn:E1; cbn [bind] in H; try discriminate.
    destruct (linearize1_inv _ _ _ _ _ E1) as (R1 & O1 & N1 & C1). cbn [cf_row] in O1.
    destruct (lc_reduce (g_lu w) cs coll1 lcr true) as [[lcr1 s1]| | |] eqn:E2; cbn [bind fst snd] in H; try discriminate.
    specialize (IH _ _ _ _ _ _ _ _ _ H R1 (ex_intro _ _ E2)). destruct found.
    + destruct IH as (c' & F & I1 & I2 & I3 & I4 & I5 & I6 & I7 & I8). cbn [cf_id cf_row cf_ratio] in *.
      exists c'. repeat split; try assumption; try apply I4; try congruence.
      * rewrite (proj1 (I5 i H0)). apply (O1 i H0).
      * rewrite (proj2 (I5 i H0)). apply (O1 i H0).
    + rewrite N1 in IH. exact IH.
Qed.

Lemma report_step cs x cur r j coll lcr fs coll1 c coll' lcr' fs' ok :
  lc_rows coll = length fs ->
  add_collision w j x cur r coll = Ok (coll1, c) -> find_new w cs j x coll1 lcr fs c = Ok (coll', lcr', fs', ok) ->
  if ok then exists c, fs' = fs ++ [c] /\ cf_id c = j /\ cf_row c = length fs /\
       cf_ratio c = snd r / sp_len (sp_at w cur j) /\ lc_rows coll' = length fs' /\
       row_of j x c coll' /\ (forall i, (i < length fs)%nat -> (forall col, lc_J coll' i col = lc_J coll i col) /\ lc_b coll' i = lc_b coll i) /\
       (forall v s, lc_solution cs v = Ok s -> (sat lcr' v <-> sat coll' s)) /\
       lc_rank lcr' = Some (Nat.min (lc_rows lcr') (lc_cols lcr')) /\ lc_rows lcr' = length fs'
  else fs' = fs /\ lc_rows coll' = length fs' /\ lc_rows lcr' = S (length fs').
Proof.
  intros Hf Ea Ef.
  unfold add_collision in Ea. destruct (g_create w _ _ _) as [f| | |]; cbn [bind] in Ea; try discriminate.
  destruct (linearize1 w j x _ _) as [coll2| | |] eqn:El; cbn [bind] in Ea; try discriminate. injection Ea as -> <-.
  destruct (linearize1_inv _ _ _ _ _ El) as (R1 & O1 & N1 & C1). cbn [cf_row lc_add_rows lc_rows] in O1, N1.
  unfold find_new in Ef. destruct (lc_reduce (g_lu w) cs coll1 lcr true) as [[lcr1 s1]| | |] eqn:E2; cbn [bind fst snd] in Ef; try discriminate.
  pose proof (find_loop_inv _ _ _ _ _ _ _ _ _ _ _ _ _ Ef R1 (ex_intro _ _ E2)) as L. cbn [cf_row cf_id cf_ratio lc_add_rows lc_rows] in L.
  replace (lc_rows coll + 1 - 1)%nat with (length fs) in * by lia.
  destruct ok.
  - destruct L as (c' & -> & I1 & I2 & I3 & I4 & I5 & I6 & I7 & (l0 & I8)). exists c'.
    destruct (reduce_inv _ _ _ _ _ _ _ I8) as (k & PK & xs & Hd & Ec & Er & Ek & _ & _ & Q). destruct (Q eq_refl) as (Q1 & Q2).
    symmetry in Q1. apply Nat.eqb_eq in Q1.
    split; [reflexivity|]. split; [exact I1|]. split; [exact I2|]. split; [exact I3|].
    split; [rewrite app_length; cbn [length]; lia|]. split; [exact I4|]. split; [|split; [|split]].
    + intros i Hi. destruct (I5 i) as (A1 & A2); [lia|]. destruct (O1 i) as (B1 & B2); [lia|].
      rewrite A1, A2, B1, B2. cbn [lc_add_rows lc_J lc_b]. destruct (Nat.ltb_spec i (lc_rows coll)); [split; reflexivity|lia].
    + intros v s Hs. exact (proj1 (reduce_sat _ _ _ _ _ _ _ v s I8 Hs)).
    + rewrite Q2, Q1, Er, Ek. reflexivity.
    + rewrite Er, app_length. cbn [length]. lia.
  - destruct L as (-> & L1 & L2). split; [reflexivity|]. split; lia.
Qed.

(* One report, as when the validation stops at the first collision. If the
   collision is taken into account, a row is added which is its linearisation,
   the others are kept, the constraint given to the solver has the same
   solutions, and its rank is that of as many independent equations. Otherwise
   the functions are kept, but the constraint of the solver keeps the row which
   was removed. *)
Theorem C112_one_report_partial cs dim x cur r j coll lcr fs coll' lcr' fs' ok :
  lc_rows coll = length fs ->
  add_reports w cs dim x cur [(r, j)] coll lcr fs false = Ok (coll', lcr', fs', ok) ->
  if ok then exists c, fs' = fs ++ [c] /\ cf_id c = j /\ cf_row c = length fs /\
       cf_ratio c = snd r / sp_len (sp_at w cur j) /\ lc_rows coll' = length fs' /\
       row_of j x c coll' /\ (forall i, (i < length fs)%nat -> (forall col, lc_J coll' i col = lc_J coll i col) /\ lc_b coll' i = lc_b coll i) /\
       (forall v s, lc_solution cs v = Ok s -> (sat lcr' v <-> sat coll' s)) /\
       lc_rank lcr' = Some (Nat.min (lc_rows lcr') (lc_cols lcr')) /\ lc_rows lcr' = length fs'
  else fs' = fs /\ lc_rows coll' = length fs' /\ lc_rows lcr' = S (length fs').
Proof.
  intros Hf H. cbn [add_reports fst snd] in H.
  destruct (add_collision w j x cur r coll) as [[coll1 c]| | |] eqn:Ea; cbn [bind fst snd] in H; try discriminate.
  destruct (find_new w cs j x coll1 lcr fs c) as [[[[coll2 lcr2] fs2] found]| | |] eqn:Ef; cbn [bind] in H; try discriminate.
  assert (E : (coll2, lcr2, fs2, found) = (coll', lcr', fs', ok)).
  { cbn [orb] in H. destruct found; cbn [negb] in H; [|injection H as <- <- <- <-; reflexivity].
    destruct (rank_of lcr2); cbn [bind] in H; try discriminate.
    destruct (dim <=? a)%nat; injection H as <- <- <- <-; reflexivity. }
  injection E as -> -> -> ->. clear H.
  exact (report_step _ _ _ _ _ _ _ _ _ _ _ _ _ _ Hf Ea Ef).
Qed.
(* What the new equation says: along a change of the path, the configuration of
   its spline at the parameter of the collision moves without changing the
   collision function, to first order around the path. *)
Lemma sp_at_nth y j : (j < length (g_ss w))%nat ->
  sp_at w y j = set_par (nth_spline (g_ss w) j) (fun i d => y (pidx (g_n w) (g_nv w) j i d)).
Proof. apply update_nth. Qed.
Lemma lin_row_dot j x c v : (cf_id c < length (g_ss w))%nat ->
  dot (w_size w) (lin_row w j x c) v =
  rsum (fun d => g_jac w j (cf_f c) (fun d => sp_compute (sp_at w x (cf_id c)) (sp_len (sp_at w x (cf_id c)) * cf_ratio c) d) d *
                 rsum (fun i => v (pidx (g_n w) (g_nv w) (cf_id c) i d) * bern_der (g_n w) 0 (cf_ratio c) i) (S (g_n w))) (g_nv w).
Proof.
  intros Hc. unfold dot, w_size. rewrite rsum_params. rewrite (rsum_single _ _ (cf_id c) Hc).
  - rewrite rsum_swap. apply rsum_ext. intros d Hd. rewrite <- rsum_scal. apply rsum_ext. intros i Hi.
    unfold lin_row. rewrite pidx_div, Nat.eqb_refl, pidx_mod by lia. rewrite div_block, mod_block by exact Hd. ring.
  - intros p _ Hp. apply rsum_zero. intros i Hi. apply rsum_zero. intros d Hd. unfold lin_row. rewrite pidx_div by lia.
    destruct (Nat.eqb_spec p (cf_id c)); [contradiction|ring].
Qed.
Theorem C112_equation cs dim x cur r j coll lcr fs coll' lcr' fs' :
  proper (g_n w) (g_nv w) (g_ss w) -> (forall s, In s (g_ss w) -> sp_t0 s = 0) ->
  (j < length (g_ss w))%nat -> 0 <= snd r <= sp_len (nth_spline (g_ss w) j) ->
  lc_rows coll = length fs ->
  add_reports w cs dim x cur [(r, j)] coll lcr fs false = Ok (coll', lcr', fs', true) ->
  exists c b, fs' = fs ++ [c] /\ lc_b coll' (length fs) = Some b /\
  forall v, dot (w_size w) (lc_J coll' (length fs)) v = b <->
    rsum (fun d => g_jac w j (cf_f c) (sp_compute (sp_at w x j) (snd r)) d *
                   (sp_compute (sp_at w v j) (snd r) d - sp_compute (sp_at w x j) (snd r) d)) (g_nv w) = 0.
Proof.
  intros Hp H0 Hj Hr Hf H. destruct (C112_one_report_partial _ _ _ _ _ _ _ _ _ _ _ _ _ Hf H) as (c & -> & Hid & Hrow & Hra & _ & [HJ Hb] & _).
  rewrite Hrow in HJ, Hb. eexists c, _. split; [reflexivity|]. split; [exact Hb|]. intros v. rewrite HJ.
  destruct Hp as (_ & _ & Hp). assert (Hin : In (nth_spline (g_ss w) j) (g_ss w)) by (apply nth_In; exact Hj).
  destruct (Hp _ Hin) as (Hdeg & _ & Ht). pose proof (H0 _ Hin) as Hz.
  set (s := nth_spline (g_ss w) j) in *. assert (Hl : 0 < sp_len s) by (unfold sp_len; lra).
  assert (Hlen : forall y, sp_len (sp_at w y j) = sp_len s) by (intros y; rewrite sp_at_nth by exact Hj; reflexivity).
  assert (Hq : forall y d, sp_compute (sp_at w y j) (snd r) d =
    sp_base s d + rsum (fun i => y (pidx (g_n w) (g_nv w) j i d) * bern_der (g_n w) 0 (snd r / sp_len s) i) (S (g_n w))).
  { intros y d. unfold sp_compute. rewrite Hlen. destruct (reqb_spec (sp_len s) 0); [lra|].
    assert (Hu : 0 <= snd r / sp_len s <= 1).
    { split; [apply Rmult_le_pos; [lra|left; apply Rinv_0_lt_compat; exact Hl]|]. apply (Rmult_le_reg_r (sp_len s)); [exact Hl|]. unfold Rdiv. rewrite Rmult_assoc, Rinv_l by lra. lra. }
    rewrite sp_at_nth by exact Hj. fold s. cbn [set_par sp_t0 sp_deg]. rewrite Hz, Rminus_0_r.
    destruct (rltb_spec (snd r / sp_len s) 0); [lra|]. destruct (rltb_spec 1 (snd r / sp_len s)); [lra|].
    unfold sp_value, combine_par. cbn [set_par sp_base sp_deg sp_par]. rewrite Hdeg. reflexivity. }
  assert (Hid' : (cf_id c < length (g_ss w))%nat) by (rewrite Hid; exact Hj).
  rewrite !lin_row_dot by exact Hid'. rewrite Hid, Hra, !Hlen.
  replace (sp_len s * (snd r / sp_len s)) with (snd r) by (field; lra).
  set (J := g_jac w j (cf_f c) (sp_compute (sp_at w x j) (snd r))).
  change (g_jac w j (cf_f c) (fun d => sp_compute (sp_at w x j) (snd r) d)) with J.
  rewrite (rsum_ext (fun d => J d * (sp_compute (sp_at w v j) (snd r) d - sp_compute (sp_at w x j) (snd r) d))
     (fun d => J d * rsum (fun i => v (pidx (g_n w) (g_nv w) j i d) * bern_der (g_n w) 0 (snd r / sp_len s) i) (S (g_n w)) -
               J d * rsum (fun i => x (pidx (g_n w) (g_nv w) j i d) * bern_der (g_n w) 0 (snd r / sp_len s) i) (S (g_n w)))).
  2:{ intros d _. rewrite !Hq. ring. }
  rewrite rsum_minus. split; intros E; lra.
Qed.
(* Any number of reports: the functions added are those of some of the reports,
   one row each; the constraint given to the solver is theirs unless it has one
   row more. *)
Theorem C112_reports_partial cs dim x cur : forall reports coll lcr fs ok0 coll' lcr' fs' ok, reports <> [] ->
  lc_rows coll = length fs ->
  add_reports w cs dim x cur reports coll lcr fs ok0 = Ok (coll', lcr', fs', ok) ->
  (exists new, fs' = fs ++ new /\ (length new <= length reports)%nat /\
     (forall c, In c new -> exists r, In (r, cf_id c) reports /\ cf_ratio c = snd r / sp_len (sp_at w cur (cf_id c)))) /\
  lc_rows coll' = length fs' /\
  ((lc_rows lcr' = length fs' /\ (forall v s, lc_solution cs v = Ok s -> (sat lcr' v <-> sat coll' s)) /\
    lc_rank lcr' = Some (Nat.min (lc_rows lcr') (lc_cols lcr'))) \/
   lc_rows lcr' = S (length fs')).
Proof.
  induction reports as [|[r j] t IH]; intros coll lcr fs ok0 coll' lcr' fs' ok Hne Hf H; [contradiction|]. clear Hne.
  cbn [add_reports fst snd] in H.
  destruct (add_collision w j x cur r coll) as [[coll1 c]| | |] eqn:Ea; cbn [bind fst snd] in H; try discriminate.
  destruct (find_new w cs j x coll1 lcr fs c) as [[[[coll2 lcr2] fs2] found]| | |] eqn:Ef; cbn [bind] in H; try discriminate.
  pose proof (report_step _ _ _ _ _ _ _ _ _ _ _ _ _ _ Hf Ea Ef) as P.
  assert (Q : (exists new, fs2 = fs ++ new /\ (length new <= 1)%nat /\
      (forall c, In c new -> cf_id c = j /\ cf_ratio c = snd r / sp_len (sp_at w cur j))) /\
      lc_rows coll2 = length fs2 /\
      ((lc_rows lcr2 = length fs2 /\ (forall v s, lc_solution cs v = Ok s -> (sat lcr2 v <-> sat coll2 s)) /\
        lc_rank lcr2 = Some (Nat.min (lc_rows lcr2) (lc_cols lcr2))) \/ lc_rows lcr2 = S (length fs2))).
  { destruct found.
    - destruct P as (c' & -> & P1 & P2 & P3 & P4 & _ & _ & P7 & P8 & P9). split; [|split; [exact P4|left; auto]].
      exists [c']. split; [reflexivity|]. split; [cbn; lia|]. intros c0 [<-|[]]. auto.
    - destruct P as (-> & P1 & P2). split; [|split; [exact P1|right; exact P2]].
      exists []. rewrite app_nil_r. split; [reflexivity|]. split; [cbn; lia|]. intros c0 []. }
  destruct Q as ((new & -> & Q1 & Q2) & Q3 & Q4).
  assert (W : (exists new0, fs ++ new = fs ++ new0 /\ (length new0 <= length ((r, j) :: t))%nat /\
     (forall c, In c new0 -> exists r0, In (r0, cf_id c) ((r, j) :: t) /\ cf_ratio c = snd r0 / sp_len (sp_at w cur (cf_id c))))).
  { exists new. split; [reflexivity|]. split; [cbn [length]; lia|]. intros c0 Hc. destruct (Q2 c0 Hc) as (A & B).
    exists r. rewrite A. split; [left; reflexivity|exact B]. }
  destruct (negb (ok0 || found)); [injection H as <- <- <- <-; auto|].
  destruct (rank_of lcr2) as [rk| | |]; cbn [bind] in H; try discriminate.
  destruct (dim <=? rk)%nat; [injection H as <- <- <- <-; auto|].
  destruct t as [|y t']; [cbn [add_reports] in H; injection H as <- <- <- <-; auto|].
  destruct (IH _ _ _ _ _ _ _ _ ltac:(discriminate) Q3 H) as ((new' & -> & R1 & R2) & R3 & R4).
  split; [|split; assumption]. exists (new ++ new'). rewrite app_assoc. split; [reflexivity|]. split; [rewrite app_length; cbn [length] in *; lia|].
  intros c0 Hc. apply in_app_or in Hc. destruct Hc as [Hc|Hc].
  - destruct (Q2 c0 Hc) as (A & B). exists r. rewrite A. split; [left; reflexivity|exact B].
  - destruct (R2 c0 Hc) as (r0 & A & B). exists r0. split; [right; exact A|exact B].
Qed.
End Coll.

(* With several reports, the solver is called although the last one was
   removed: its constraint then has a row of no collision, and its rows are not
   independent. Here the configuration of the second spline does not act on the
   function of its collision. The decomposed constraint has no equation. *)
Definition indep_dec m n J : {independent_rows m n J} + {~ independent_rows m n J} :=
  match sig_not_dec (independent_rows m n J) with
  | left H => left (NNPP _ H)
  | right H => right H
  end.
Definition ideal_lu (m n : nat) (J : mat) : nat := if indep_dec m n J then m else 0%nat.
Lemma ideal_exact m n J : (0 < m <= n)%nat -> exact_rank ideal_lu m n J.
Proof.
  intros H. unfold exact_rank, ideal_lu. destruct (indep_dec m n J) as [A|A]; (split; [lia|]); split; intros; auto; [lia|contradiction].
Qed.
Definition two_sgb : @sgb unit unit :=
  mkSGB 2 1 [bump 0; bump 0] (fun _ _ => true) (fun _ => 1) 1 (/ 5) false false true false false (/ 100)
    [] (fun _ => MInf) (fun _ => PInf) bump_qr ideal_lu bump_solver (fun _ _ => Some (tt, / 2))
    (fun _ _ _ => Ok tt) (fun f => f) (fun sod _ _ _ => if (sod =? 0)%nat then 1 else 0) (fun _ => false).
Definition free_cs : lincons := mkLC 0 6 (fun _ _ => 0) (fun _ => None) None (Some (6%nat, mid, fun _ => 0)).

Lemma lin_row0 x f row rat : rat = / 2 -> lin_row two_sgb 0 x (mkCF f 0 row rat) 1%nat = / 2.
Proof.
  intros ->. unfold lin_row. cbn [two_sgb g_n g_nv g_jac cf_id cf_ratio bsize Nat.eqb].
  change (1 / bsize 2 1 =? 0)%nat with true. change (1 mod bsize 2 1 / 1)%nat with 1%nat. cbv iota.
  destruct (bern20 (/ 2)) as (_ & -> & _). lra.
Qed.
Lemma lin_row1 x c col : lin_row two_sgb 1 x c col = 0.
Proof. unfold lin_row. cbn [two_sgb g_jac Nat.eqb]. destruct (_ =? _)%nat; [ring|reflexivity]. Qed.
Lemma zero_row J : (forall j, J 1%nat j = 0) -> ~ independent_rows 2 6 J.
Proof.
  intros H A. assert (B := A (fun i => match i with 1%nat => 1 | _ => 0 end)). cbn beta in B.
  assert (X : 1 = 0); [|lra]. refine (B _ 1%nat _); [|lia]. intros j _. cbn [rsum]. rewrite H. ring.
Qed.
Lemma mm_mid6 J i : mm 6 J mid i 1%nat = J i 1%nat.
Proof. unfold mm, mid. cbn [rsum Nat.eqb]. ring. Qed.
Lemma mm_zero J : (forall j, J 1%nat j = 0) -> forall j, mm 6 J mid 1%nat j = 0.
Proof. intros H j. unfold mm. cbn [rsum]. rewrite !H. ring. Qed.
Lemma reduce_bad coll lcr : lc_rows coll = 2%nat -> lc_cols coll = 6%nat -> (forall j, lc_J coll 1%nat j = 0) ->
  exists l, lc_reduce ideal_lu free_cs coll lcr true = Ok (l, false) /\ lc_rows l = 2%nat /\ lc_rank l = Some 0%nat /\
    lc_cols l = 6%nat /\ forall j, lc_J l 1%nat j = 0.
Proof.
  intros Hr Hc HJ. unfold lc_reduce. cbn [free_cs lc_dec lc_cols]. rewrite Hc, Hr. cbn [Nat.eqb]. unfold lc_compute_rank. cbn [lc_rows lc_cols Nat.mul Nat.add Nat.eqb lc_J].
  unfold ideal_lu at 1 2. destruct (indep_dec 2 6 _) as [A|A].
  - exfalso. revert A. apply zero_row. apply mm_zero, HJ.
  - eexists. split; [reflexivity|]. split; [reflexivity|]. split; [reflexivity|]. split; [reflexivity|]. apply mm_zero, HJ.
Qed.
Lemma loop_bad x : forall k coll lcr fs c, lc_rows coll = 2%nat -> lc_cols coll = 6%nat -> (forall j, lc_J coll 1%nat j = 0) ->
  cf_row c = 1%nat -> lc_rows lcr = 2%nat -> lc_rank lcr = Some 0%nat -> lc_cols lcr = 6%nat -> (forall j, lc_J lcr 1%nat j = 0) ->
  exists coll' lcr', find_loop two_sgb free_cs 1 x k coll lcr fs c false = Ok (coll', lcr', fs, false) /\
    lc_rows coll' = 1%nat /\ lc_rows lcr' = 2%nat /\ lc_rank lcr' = Some 0%nat /\ lc_cols lcr' = 6%nat /\ forall j, lc_J lcr' 1%nat j = 0.
Proof.
  induction k as [|k IH]; intros coll lcr fs c H1 H2 H3 H4 H5 H6 H7 H8; cbn [find_loop].
  - eexists _, _. split; [reflexivity|]. cbn [drop_row lc_rows]. rewrite H1. auto.
  - unfold linearize1. cbn [two_sgb g_ss length Nat.ltb Nat.leb bind g_lu].
    match goal with |- context [lc_reduce ideal_lu free_cs ?cc lcr true] => destruct (reduce_bad cc lcr) as (l & E & L1 & L2 & L3 & L4) end;
      [exact H1|exact H2| |].
    + intros j. cbn [lc_set_row lc_J cf_row]. rewrite H4. cbn [Nat.eqb]. apply lin_row1.
    + rewrite E. cbn [bind fst snd]. apply IH; try assumption.
      intros j. cbn [lc_set_row lc_J cf_row]. rewrite H4. cbn [Nat.eqb]. apply lin_row1.
Qed.
Lemma reduce_good coll lcr : lc_rows coll = 1%nat -> lc_cols coll = 6%nat -> lc_J coll 0%nat 1%nat = / 2 ->
  exists l, lc_reduce ideal_lu free_cs coll lcr true = Ok (l, true) /\ lc_rank l = Some 1%nat.
Proof.
  intros Hr Hc HJ. unfold lc_reduce. cbn [free_cs lc_dec lc_cols]. rewrite Hc, Hr. cbn [Nat.eqb]. unfold lc_compute_rank. cbn [lc_rows lc_cols Nat.mul Nat.add Nat.eqb lc_J].
  unfold ideal_lu at 1 2. destruct (indep_dec 1 6 _) as [A|A]; [eexists; split; reflexivity|].
  exfalso. apply A. intros c Hz i Hi. replace i with 0%nat by lia. specialize (Hz 1%nat ltac:(lia)). cbn [rsum] in Hz. rewrite mm_mid6, HJ in Hz. lra.
Qed.
Lemma two_len x j : (j < 2)%nat -> / 2 / sp_len (sp_at two_sgb x j) = / 2.
Proof.
  intros Hj. assert (E : sp_len (sp_at two_sgb x j) = 1).
  { destruct j as [|[|j]]; [| |lia]; unfold sp_at, with_params, update_splines, nth_spline, sp_len; cbn; ring. }
  rewrite E. field.
Qed.
Definition coll_fn j coll : @cfn unit := mkCF tt j (lc_rows coll + 1 - 1) (/ 2).
Definition coll_row j x coll : lincons :=
  lc_set_row (lc_rows coll + 1 - 1) (lin_row two_sgb j x (coll_fn j coll)) (dot 6 (lin_row two_sgb j x (coll_fn j coll)) x) (lc_add_rows 1 coll).
Lemma two_add j x coll : (j < 2)%nat -> add_collision two_sgb j x x (tt, / 2) coll = Ok (coll_row j x coll, coll_fn j coll).
Proof.
  intros Hj. unfold add_collision. cbn [fst snd]. rewrite (two_len x j Hj). unfold coll_row, coll_fn.
  destruct j as [|[|j]]; [reflexivity|reflexivity|lia].
Qed.
Theorem C112_stale_row_refuted : exists (w : @sgb unit unit) cs x reports coll' lcr' fs',
  (forall m J, (0 < m <= 6)%nat -> exact_rank (g_lu w) m 6 J) /\
  reports = fst (validate_path w false x (seq 0 (length (g_ss w)))) /\
  add_reports w cs 6 x x reports (lc_new 6 0) (lc_new 6 0) [] false = Ok (coll', lcr', fs', true) /\
  length fs' = 1%nat /\ lc_rows coll' = 1%nat /\ lc_rows lcr' = 2%nat /\
  ~ independent_rows (lc_rows lcr') (lc_cols lcr') (lc_J lcr').
Proof.
  exists two_sgb, free_cs, (fun _ => 0), [((tt, / 2), 0%nat); ((tt, / 2), 1%nat)].
  set (x := fun _ : nat => 0).
  assert (E : exists coll' lcr' fs', add_reports two_sgb free_cs 6 x x [((tt, / 2), 0%nat); ((tt, / 2), 1%nat)] (lc_new 6 0) (lc_new 6 0) [] false
      = Ok (coll', lcr', fs', true) /\ length fs' = 1%nat /\ lc_rows coll' = 1%nat /\ lc_rows lcr' = 2%nat /\ lc_cols lcr' = 6%nat /\ forall j, lc_J lcr' 1%nat j = 0).
  { cbn [add_reports fst snd]. rewrite (two_add 0) by lia. cbn [bind fst snd]. unfold find_new at 1. change (g_lu two_sgb) with ideal_lu.
    destruct (reduce_good (coll_row 0 x (lc_new 6 0)) (lc_new 6 0)) as (l & E & L); [reflexivity|reflexivity|apply lin_row0; reflexivity|].
    rewrite E. cbn [bind fst snd find_loop orb negb app]. unfold rank_of at 1. rewrite L. cbn [bind Nat.leb].
    rewrite (two_add 1) by lia. cbn [bind fst snd]. unfold find_new. change (g_lu two_sgb) with ideal_lu.
    set (coll2 := coll_row 1 x (coll_row 0 x (lc_new 6 0))).
    assert (Z : forall j, lc_J coll2 1%nat j = 0) by (intros j; apply lin_row1).
    destruct (reduce_bad coll2 l eq_refl eq_refl Z) as (l2 & E2 & M1 & M2 & M3 & M4). rewrite E2. cbn [bind fst snd].
    match goal with |- context [find_loop two_sgb free_cs 1 x 5 coll2 l2 ?ff ?cc false] =>
      destruct (loop_bad x 5 coll2 l2 ff cc eq_refl eq_refl Z eq_refl M1 M2 M3 M4) as (c3 & l3 & E3 & N1 & N2 & N3 & N4 & N5) end.
    rewrite E3. cbn [bind orb negb]. unfold rank_of. rewrite N3. cbn [bind Nat.leb].
    eexists _, _, _. split; [reflexivity|]. auto. }
  destruct E as (coll' & lcr' & fs' & E & F1 & F2 & F3 & F4 & F5). exists coll', lcr', fs'.
  split; [intros m J Hm; apply ideal_exact; exact Hm|]. split; [reflexivity|]. split; [exact E|]. split; [exact F1|]. split; [exact F2|]. split; [exact F3|].
  rewrite F3, F4. apply zero_row, F5.
Qed.

(* a collision taken into account *)
Example C112_ex : exists coll' lcr' fs', add_reports two_sgb free_cs 6 (fun _ => 0) (fun _ => 0) [((tt, / 2), 0%nat)] (lc_new 6 0) (lc_new 6 0) [] false
  = Ok (coll', lcr', fs', true) /\ length fs' = 1%nat.
Proof.
  cbn [add_reports fst snd]. rewrite (two_add 0) by lia. cbn [bind fst snd]. unfold find_new. change (g_lu two_sgb) with ideal_lu.
  destruct (reduce_good (coll_row 0 (fun _ => 0) (lc_new 6 0)) (lc_new 6 0)) as (l & E & L); [reflexivity|reflexivity|apply lin_row0; reflexivity|].
  rewrite E. cbn [bind fst snd find_loop orb negb app]. unfold rank_of. rewrite L. cbn [bind Nat.leb].
  eexists _, _, _. split; reflexivity.
Qed.

(* the hypotheses of [C112_equation] are met by it: the splines start at 0 *)
Example C112_equation_ex : proper (g_n two_sgb) (g_nv two_sgb) (g_ss two_sgb) /\ (forall s, In s (g_ss two_sgb) -> sp_t0 s = 0) /\
  0 <= / 2 <= sp_len (nth_spline (g_ss two_sgb) 0).
Proof.
  unfold proper. cbn [two_sgb g_n g_nv g_ss]. split; [|split].
  - split; [discriminate|]. split; [lia|]. intros s [<-|[<-|[]]]; cbn; repeat split; lra.
  - intros s [<-|[<-|[]]]; reflexivity.
  - cbn. unfold sp_len. cbn. lra.
Qed.

Print Assumptions C112_one_report_partial.
Print Assumptions C112_equation.
Print Assumptions C112_reports_partial.
Print Assumptions C112_stale_row_refuted.
