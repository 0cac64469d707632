(* Proofs of C108: the grid. *)
From Coq Require Import Reals Lra Lia Psatz ZArith.
From Verif Require Import Base XReal TopModel TopSpec.
Open Scope R_scope.

Lemma last_nth {A} (l : list A) d : last l d = nth (length l - 1) l d.
Proof.
  induction l as [|a l IH]; [reflexivity|]. destruct l as [|b l]; [reflexivity|].
  change (last (a :: b :: l) d) with (last (b :: l) d). rewrite IH. cbn [length].
  replace (S (S (length l)) - 1)%nat with (S (length l)) by lia. replace (S (length l) - 1)%nat with (length l) by lia. reflexivity.
Qed.
Lemma ceil_spec x : x <= IZR (ceilZ x) < x + 1.
Proof. unfold ceilZ. destruct (archimed (- x)) as [A B]. rewrite minus_IZR. lra. Qed.
Lemma npoints_spec len d : 0 <= len -> 0 < d ->
  len / d <= INR (npoints len (Some d)) < len / d + 1 /\ (npoints len (Some d) = 0%nat -> len = 0).
Proof.
  intros Hl Hd. unfold npoints. pose proof (ceil_spec (len / d)) as [A B].
  assert (P : 0 <= len / d) by (apply Rmult_le_pos; [exact Hl|left; apply Rinv_0_lt_compat; exact Hd]).
  assert (Z0 : (0 <= ceilZ (len / d))%Z) by (apply le_IZR; apply (Rle_trans _ _ _ P A)).
  assert (E : INR (Z.to_nat (ceilZ (len / d))) = IZR (ceilZ (len / d))) by (rewrite INR_IZR_INZ, Z2Nat.id by exact Z0; reflexivity).
  split; [rewrite E; lra|]. intros N0. rewrite N0 in E. cbn [INR] in E. assert (len / d <= 0) by lra.
  assert (len / d * d = len) by (field; lra). nra.
Qed.
Lemma subgrid_len p0 len n : length (subgrid p0 len n) = n.
Proof. unfold subgrid. rewrite map_length, seq_length. reflexivity. Qed.
Lemma subgrid_nth p0 len n i : (i < n)%nat -> nth i (subgrid p0 len n) 0 = p0 + len * INR (S i) / INR n.
Proof.
  intros H. unfold subgrid. set (f := fun k => p0 + len * INR k / INR n).
  rewrite (nth_indep _ 0 (f 0%nat)) by (rewrite map_length, seq_length; exact H).
  rewrite map_nth, seq_nth by exact H. reflexivity.
Qed.

Section Grid.
Context {C : Type}.
Variable d : R.
Hypothesis Hd : 0 < d.
Definition plen (p : tsub C) : R := ts_b p - ts_a p.
Fixpoint npts (l : list (tsub C)) : nat :=
  match l with [] => 0%nat | p :: l' => (npoints (plen p) (Some d) + npts l')%nat end.

(* one sub-path *)
Lemma one_step (params : list R) len : params <> [] -> 0 <= len ->
  let n := npoints len (Some d) in
  let g := params ++ subgrid (last params 0) len n in
  g <> [] /\ last g 0 = last params 0 + len /\
  forall k, (length params - 1 <= k)%nat -> (S k < length g)%nat ->
    nth k g 0 < nth (S k) g 0 /\ nth (S k) g 0 - nth k g 0 <= d.
Proof.
  intros Hp Hl n g. destruct (npoints_spec len d Hl Hd) as [[A B] Z]. fold n in A, B, Z.
  assert (Lp : (0 < length params)%nat) by (destruct params; [congruence|cbn; lia]).
  assert (Lg : length g = (length params + n)%nat) by (unfold g; rewrite app_length, subgrid_len; reflexivity).
  assert (G : forall k, (length params - 1 <= k)%nat -> (k < length g)%nat ->
            nth k g 0 = last params 0 + len * INR (k - (length params - 1)) / INR n).
  { intros k K1 K2. unfold g. destruct (Nat.eq_dec k (length params - 1)) as [->|N].
    - rewrite app_nth1 by lia. rewrite last_nth, Nat.sub_diag. cbn [INR]. unfold Rdiv. ring.
    - rewrite app_nth2 by lia. rewrite subgrid_nth by lia. do 4 f_equal. lia. }
  split; [intros E; rewrite E in Lg; cbn in Lg; lia|]. split.
  - rewrite (last_nth g), Lg. destruct n as [|n'] eqn:En.
    + rewrite Nat.add_0_r. rewrite G by lia. rewrite Nat.sub_diag. cbn [INR]. rewrite (Z eq_refl). unfold Rdiv. ring.
    + rewrite G by lia. replace (length params + S n' - 1 - (length params - 1))%nat with (S n') by lia.
      field. apply not_0_INR. lia.
  - intros k K1 K2. assert (n0 : (0 < n)%nat) by lia. assert (N0 : 0 < INR n) by (apply lt_0_INR; exact n0).
    rewrite (G k), (G (S k)) by lia. replace (S k - (length params - 1))%nat with (S (k - (length params - 1))) by lia.
    rewrite S_INR.
    assert (P : 0 < len). { destruct (Rle_lt_or_eq_dec 0 len Hl) as [Q|Q]; [exact Q|]. exfalso. rewrite <- Q in B, A.
      unfold Rdiv in B. rewrite Rmult_0_l, Rplus_0_l in B. assert ((n < 1)%nat) by (apply INR_lt; exact B). lia. }
    assert (Q : last params 0 + len * (INR (k - (length params - 1)) + 1) / INR n -
                (last params 0 + len * INR (k - (length params - 1)) / INR n) = len / INR n) by (field; lra).
    assert (0 < len / INR n) by (apply Rdiv_lt_0_compat; assumption).
    split; [lra|]. rewrite Q. apply (Rmult_le_reg_r (INR n)); [exact N0|]. replace (len / INR n * INR n) with len by (field; lra).
    replace len with (len / d * d) by (field; lra). nra.
Qed.

Lemma grid_loop_spec : forall l params ids g ids', params <> [] -> Forall (fun p => 0 <= plen p) l ->
  grid_loop (Some d) l params ids = (g, ids') ->
  exists ext idx, g = params ++ ext /\ ids' = ids ++ idx /\ length ext = npts l /\ length idx = length l /\
  last g 0 = last params 0 + upto plen l (length l) /\
  (forall k, (length params - 1 <= k)%nat -> (S k < length g)%nat -> nth k g 0 < nth (S k) g 0 /\ nth (S k) g 0 - nth k g 0 <= d) /\
  (forall j, (j < length l)%nat -> (length params - 1 <= nth j idx 0 < length g)%nat /\
     nth (nth j idx 0%nat) g 0 = last params 0 + upto plen l (S j)) /\
  (forall j, (S j < length l)%nat -> (nth j idx 0 <= nth (S j) idx 0)%nat) /\
  (l <> [] -> nth (length l - 1) idx 0%nat = (length g - 1)%nat).
Proof.
  induction l as [|p l IH]; intros params ids g ids' Hp F E.
  - cbn in E. injection E as <- <-. exists [], []. rewrite !app_nil_r. unfold upto. cbn [length firstn fold_right].
    repeat split; try reflexivity; try lra; try congruence; try (intros; cbn in *; lia); intros; lia.
  - inversion F as [|? ? Fp Fl]; subst. cbn [grid_loop] in E. fold (plen p) in E.
    pose proof (one_step params (plen p) Hp Fp) as O. cbv zeta in O. destruct O as (O1 & O2 & O3).
    set (n := npoints (plen p) (Some d)) in *. set (params' := params ++ subgrid (last params 0) (plen p) n) in *.
    assert (Lp : (0 < length params)%nat) by (destruct params; [congruence|cbn; lia]).
    assert (Lp' : length params' = (length params + n)%nat) by (unfold params'; rewrite app_length, subgrid_len; reflexivity).
    destruct (IH _ _ _ _ O1 Fl E) as (ext & idx & G & I & X1 & X2 & X3 & X4 & X5 & X6 & X7).
    exists (subgrid (last params 0) (plen p) n ++ ext), ((length params' - 1)%nat :: idx).
    assert (Lg : length g = (length params' + length ext)%nat) by (rewrite G, app_length; reflexivity).
    assert (Gn : forall k, (k < length params')%nat -> nth k g 0 = nth k params' 0) by (intros k Hk; rewrite G; apply app_nth1; exact Hk).
    split; [rewrite G; unfold params'; rewrite <- app_assoc; reflexivity|].
    split; [rewrite I, <- app_assoc; reflexivity|].
    split; [rewrite app_length, subgrid_len, X1; reflexivity|].
    split; [cbn [length]; rewrite X2; reflexivity|].
    split; [rewrite X3, O2; unfold upto; cbn [length firstn fold_right]; lra|].
    split.
    { intros k K1 K2. destruct (Nat.lt_ge_cases (S k) (length params')) as [K|K].
      - rewrite !Gn by lia. apply O3; assumption.
      - apply X4; lia. }
    split.
    { intros [|j] Hj.
      - cbn [nth]. split; [lia|]. rewrite Gn by lia. rewrite <- last_nth, O2. unfold upto. cbn [firstn fold_right]. lra.
      - cbn [nth]. cbn [length] in Hj. destruct (X5 j ltac:(lia)) as [J1 J2]. split; [lia|]. rewrite J2, O2.
        unfold upto. cbn [firstn fold_right]. lra. }
    split.
    { intros [|j] Hj; cbn [length] in Hj; cbn [nth].
      - destruct (X5 0%nat ltac:(lia)) as [J1 _]. lia.
      - apply X6. lia. }
    { intros _. cbn [length]. replace (S (length l) - 1)%nat with (length l) by lia. destruct l as [|p' l].
      - cbn [length nth]. cbn in X1. lia.
      - cbn [length nth]. specialize (X7 ltac:(discriminate)). cbn [length] in X7. replace (S (length l) - 1)%nat with (length l) in X7 by lia. exact X7. }
Qed.

Lemma npts_bound : forall l, Forall (fun p => 0 <= plen p) l ->
  INR (npts l) <= upto plen l (length l) / d + INR (length l) /\ (l <> [] -> INR (npts l) < upto plen l (length l) / d + INR (length l)).
Proof.
  induction l as [|p l IH]; intros F.
  - unfold upto. cbn. split; [unfold Rdiv; lra|congruence].
  - inversion F as [|? ? Fp Fl]; subst. destruct (IH Fl) as [I1 _]. destruct (npoints_spec (plen p) d Fp Hd) as [[_ B] _].
    cbn [npts length]. rewrite plus_INR, S_INR. unfold upto in *. cbn [firstn fold_right].
    assert (E : (plen p + fold_right (fun p0 s => plen p0 + s) 0 (firstn (length l) l)) / d =
            plen p / d + fold_right (fun p0 s => plen p0 + s) 0 (firstn (length l) l) / d) by (field; lra).
    rewrite E. split; [|intros _]; lra.
Qed.
End Grid.
