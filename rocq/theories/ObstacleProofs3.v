(* Histories of an obstacle user; collision validation. *)
From Coq Require Import Permutation.
From Verif Require Import Base RelMotionModel ObstacleModel ObstacleSpec ObstacleProofs ObstacleProofs2.

(* run a history; exceptions are caught by the caller *)
Fixpoint run (robot : list joint) (nb : nat) (u : user) (h : list op) : res user :=
  match h with
  | [] => Ok u
  | x :: r => bind (exec robot nb x u) (fun ut => run robot nb (fst ut) r)
  end.

Lemma run_app robot nb a b : forall u, run robot nb u (a ++ b) = bind (run robot nb u a) (fun u' => run robot nb u' b).
Proof.
  induction a as [|x a IH]; intros u; [reflexivity|]. cbn [app run]. destruct (exec robot nb x u) as [[u' t]| | |]; cbn [bind fst]; auto.
Qed.

Lemma history robot nb r h : Forall (op_ok robot nb) h ->
  exists u d L, run robot nb (create r) h = Ok u /\ ledger_run robot nb r h d L /\ rep u d L /\ ledger_ok nb L.
Proof.
  induction h as [|x h IH] using rev_ind; intros Hok.
  - exists (create r), r, []. split; [reflexivity|]. split; [constructor|]. split; [apply rep_create|constructor].
  - apply Forall_app in Hok. destruct Hok as [H1 H2]. inversion H2 as [|? ? Hx _]; subst.
    destruct (IH H1) as (u & d & L & E & HL & Hr & Ho).
    destruct (step_all robot nb u d L x Hr Ho) as (u' & t & L' & E' & Hr' & Hs).
    exists u', (dflt_after x d), L'. rewrite run_app, E. cbn [bind run]. rewrite E'. cbn [bind fst].
    split; [reflexivity|]. split; [econstructor; eassumption|]. split; [exact Hr'|].
    eapply ledger_ok_step; eassumption.
Qed.

Lemma combine_maps {A B} (z : list (A * B)) : combine (map fst z) (map snd z) = z.
Proof. induction z as [|[a b] z IH]; [reflexivity|]. cbn. rewrite IH. reflexivity. Qed.

Lemma rep_vectors u d L : rep u d L ->
  length (cP u) = length (cR u) /\ length (pP u) = length (pR u) /\ length (dP u) = length (dR u) /\
  combine (cP u) (cR u) = of_class Active L /\
  Permutation (combine (pP u) (pR u)) (of_class Param L) /\
  Permutation (combine (dP u) (dR u)) (of_class Disabled L).
Proof.
  intros (_ & zc & zp & zd & (H1 & H2 & H3 & H4 & H5 & H6) & Hc & Hp & Hd).
  rewrite H1, H2, H3, H4, H5, H6, !combine_maps, !map_length. auto 10.
Qed.
Lemma reachable_zipped robot nb r h u : Forall (op_ok robot nb) h -> run robot nb (create r) h = Ok u ->
  zipped u (combine (cP u) (cR u)) (combine (pP u) (pR u)) (combine (dP u) (dR u)) /\
  (forall p, In p (cP u ++ pP u ++ dP u) -> pair_ok nb p).
Proof.
  intros Hok E. destruct (history robot nb r h Hok) as (u' & d & L & E' & HL & Hr & Ho).
  rewrite E in E'. injection E' as <-. split.
  - destruct Hr as (_ & zc & zp & zd & (H1 & H2 & H3 & H4 & H5 & H6) & _).
    unfold zipped. rewrite H1, H2, H3, H4, H5, H6, !combine_maps. auto 10.
  - destruct Hr as (_ & zc & zp & zd & (H1 & H2 & H3 & H4 & H5 & H6) & Hc & Hp & Hd).
    assert (Hpc : Permutation zc (of_class Active L)) by (rewrite Hc; reflexivity).
    pose proof (class_ok nb _ L zc Ho Hpc) as Fc. pose proof (class_ok nb _ L zp Ho Hp) as Fp. pose proof (class_ok nb _ L zd Ho Hd) as Fd.
    rewrite Forall_forall in Fc, Fp, Fd.
    intros p Hin. rewrite H1, H3, H5 in Hin.
    rewrite !in_app_iff, !in_map_iff in Hin.
    destruct Hin as [(z & <- & Hz)|[(z & <- & Hz)|(z & <- & Hz)]]; auto.
Qed.

(* all the pairs of the ledger, without removals *)
Definition no_removal (x : op) : Prop := match x with RemoveFromJoint _ _ => False | _ => True end.
Lemma ledger_pairs robot nb r h d L : ledger_run robot nb r h d L -> Forall no_removal h ->
  map e_pair L = flat_map (added robot) h.
Proof.
  induction 1 as [|h d L x L' t H IH Hs]; intros Hn; [reflexivity|].
  apply Forall_app in Hn. destruct Hn as [Hn Hx]. inversion Hx as [|? ? Hx' _]; subst. specialize (IH Hn).
  rewrite flat_map_app. cbn [flat_map]. rewrite app_nil_r, <- IH.
  destruct x as [o|o j c|model|m|rows cols sm|a b v|rq|rq|j o]; cbn [ledger_step] in Hs; try contradiction.
  1-3: destruct Hs as [_ ->]; rewrite map_app; f_equal; unfold enter; rewrite map_map; apply map_id.
  all: cbn [added]; rewrite app_nil_r.
  - destruct Hs as [_ ->]. rewrite map_map. apply map_ext. intros e. unfold reclass. destruct (e_cls e); reflexivity.
  - destruct Hs as [(_ & _ & _ & ->)|(_ & _ & ->)]; [|reflexivity]. rewrite map_map. apply map_ext. reflexivity.
  - destruct Hs as [(_ & l1 & e & l2 & -> & _ & _ & ->)|(_ & _ & ->)]; [|reflexivity]. rewrite !map_app. reflexivity.
  - destruct Hs as [_ ->]. rewrite map_map. apply map_ext. reflexivity.
  - destruct Hs as [_ ->]. reflexivity.
Qed.
Lemma classes_perm L : Permutation (of_class Active L ++ of_class Param L ++ of_class Disabled L)
                                   (map (fun e => (e_pair e, e_req e)) L).
Proof.
  induction L as [|e L IH]; [constructor|]. rewrite !of_class_cons. cbn [map].
  destruct (e_cls e); cbn [cls_eqb app].
  - apply perm_skip. exact IH.
  - rewrite <- IH. symmetry. apply Permutation_middle.
  - rewrite <- IH. rewrite !app_assoc. symmetry. apply Permutation_middle.
Qed.
Lemma rep_all_pairs u d L : rep u d L -> Permutation (cP u ++ pP u ++ dP u) (map e_pair L).
Proof.
  intros (_ & zc & zp & zd & (H1 & _ & H3 & _ & H5 & _) & Hc & Hp & Hd).
  rewrite H1, H3, H5, <- !map_app.
  assert (E : map e_pair L = map fst (map (fun e => (e_pair e, e_req e)) L)) by (rewrite map_map; reflexivity).
  rewrite E. apply Permutation_map. rewrite <- classes_perm, Hc.
  apply Permutation_app_head, Permutation_app; assumption.
Qed.

(* ---- collision validation ---- *)
Definition zhit (hit : pair -> request -> bool) (z : pair * request) : bool := hit (fst z) (snd z).
Lemma collide_val hit suf : forall pre,
  (collide hit (length pre) (map fst suf) (pre ++ map snd suf) = Ok None /\ filter (zhit hit) suf = []) \/
  exists s1 z s2, suf = s1 ++ z :: s2 /\ filter (zhit hit) s1 = [] /\ zhit hit z = true /\
    collide hit (length pre) (map fst suf) (pre ++ map snd suf) = Ok (Some (length pre + length s1)).
Proof.
  induction suf as [|z suf IH]; intros pre; [left; split; reflexivity|].
  cbn [map collide]. rewrite nth_error_mid. change (hit (fst z) (snd z)) with (zhit hit z). cbn [filter].
  destruct (zhit hit z) eqn:Eh.
  - right. exists [], z, suf. cbn [length app filter]. rewrite Nat.add_0_r. auto.
  - specialize (IH (pre ++ [snd z])). rewrite app_length in IH. cbn [length] in IH.
    rewrite Nat.add_1_r, <- !app_assoc in IH. cbn [app] in IH.
    destruct IH as [IH|(s1 & y & s2 & -> & E1 & E2 & E3)]; [left; exact IH|].
    right. exists (z :: s1), y, s2. cbn [filter]. rewrite Eh. cbn [length].
    split; [reflexivity|]. split; [exact E1|]. split; [exact E2|]. rewrite E3. do 2 f_equal. lia.
Qed.
Lemma all_from_val hit suf : forall pre,
  all_from hit (length pre) (map fst suf) (pre ++ map snd suf) = Ok (map fst (filter (zhit hit) suf)).
Proof.
  induction suf as [|z suf IH]; intros pre; [reflexivity|]. cbn [map all_from]. rewrite nth_error_mid.
  specialize (IH (pre ++ [snd z])). rewrite app_length in IH. cbn [length] in IH.
  rewrite Nat.add_1_r, <- !app_assoc in IH. cbn [app] in IH. rewrite IH. cbn [bind filter].
  change (hit (fst z) (snd z)) with (zhit hit z). destruct (zhit hit z); reflexivity.
Qed.

(* report on a list where the first collision is known *)
Lemma report_val hit (al : bool) s1 z s2 : filter (zhit hit) s1 = [] -> zhit hit z = true ->
  (match nth_error (map fst (s1 ++ z :: s2)) (length s1) with
   | None => UB
   | Some p => if al then bind (all_from hit (S (length s1)) (skipn (S (length s1)) (map fst (s1 ++ z :: s2))) (map snd (s1 ++ z :: s2)))
                            (fun l => Ok (Some (p :: l)))
               else Ok (Some [p])
   end) = Ok (Some (if al then map fst (filter (zhit hit) (s1 ++ z :: s2)) else [fst z])).
Proof.
  intros E1 E2. rewrite map_app at 1. cbn [map]. rewrite <- (map_length fst s1) at 1. rewrite nth_error_mid.
  destruct al; [|reflexivity].
  assert (Es : skipn (S (length s1)) (map fst (s1 ++ z :: s2)) = map fst s2).
  { rewrite map_app. cbn [map]. rewrite skipn_app, map_length, skipn_all2 by (rewrite map_length; lia).
    replace (S (length s1) - length s1) with 1 by lia. reflexivity. }
  rewrite Es. pose proof (all_from_val hit s2 (map snd (s1 ++ [z]))) as H.
  rewrite map_length, app_length in H. cbn [length] in H. rewrite Nat.add_1_r in H.
  assert (Er : map snd (s1 ++ [z]) ++ map snd s2 = map snd (s1 ++ z :: s2)) by (rewrite <- map_app, <- app_assoc; reflexivity).
  rewrite Er in H. rewrite H. cbn [bind]. rewrite filter_app, E1. cbn [app filter]. rewrite E2. reflexivity.
Qed.

Lemma validate_val hit cp al u zc zp zd : zipped u zc zp zd ->
  validate hit cp al u =
    Ok (match filter (zhit hit) zc with
        | z :: r => Some (if al then map fst (z :: r) else [fst z])
        | [] => if cp then match filter (zhit hit) zp with
                           | z :: r => Some (if al then map fst (z :: r) else [fst z])
                           | [] => None
                           end
                else None
        end).
Proof.
  intros (H1 & H2 & H3 & H4 & H5 & H6). unfold validate. rewrite H1, H2, H3, H4.
  pose proof (collide_val hit zc []) as Xc. pose proof (collide_val hit zp []) as Xp. cbn [length app Nat.add] in Xc, Xp.
  destruct Xc as [[Ec Fc]|(s1 & z & s2 & Es & F1 & F2 & Ec)]; rewrite Ec; cbn [bind].
  - rewrite Fc. destruct cp; [|reflexivity].
    destruct Xp as [[Ep Fp]|(s1 & z & s2 & Es & F1 & F2 & Ep)]; rewrite Ep; cbn [bind]; [rewrite Fp; reflexivity|].
    rewrite Es. rewrite (report_val hit al s1 z s2 F1 F2), filter_app, F1. cbn [app filter]. rewrite F2. reflexivity.
  - rewrite Es. rewrite (report_val hit al s1 z s2 F1 F2), filter_app, F1. cbn [app filter]. rewrite F2. reflexivity.
Qed.
