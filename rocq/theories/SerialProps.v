(* C104 *)
From Verif Require Import Base QcTac SerialModel SerialSpec.
Open Scope nat_scope.

Section S.
Context {V K : Type}.
Notation obj := (obj V K).

Fixpoint obj_ind' (P : obj -> Prop)
  (H : forall c h ms subs, Forall P subs -> P (Obj c h ms subs)) (o : obj) : P o :=
  match o with
  | Obj c h ms subs =>
      H c h ms subs ((fix go (l : list obj) : Forall P l :=
                        match l with [] => Forall_nil P | x :: r => Forall_cons x (obj_ind' P H x) (go r) end) subs)
  end.

(* without time parameterization, parameters are times *)
Lemma built_param h : built (K := K) h ->
  h_param h = match h_tp h with Some f => (f (fst (h_time h)), f (snd (h_time h))) | None => h_time h end.
Proof.
  induction 1 as [I n m c|h I B IH|h f I B IH|h c B IH]; try reflexivity.
  exact IH.
Qed.

Definition save_list (l : list obj) : res (list (tok V K)) :=
  (fix go (l : list obj) : res (list (tok V K)) :=
     match l with
     | [] => Ok []
     | x :: r => bind (save V K x) (fun a => bind (go r) (fun b => Ok (a ++ b)))
     end) l.
Definition load_list (k : nat) : nat -> list (tok V K) -> option (list obj * list (tok V K)) :=
  fix go (n : nat) (ts : list (tok V K)) : option (list obj * list (tok V K)) :=
    match n with
    | 0 => Some ([], ts)
    | S m => match load V K k ts with
             | Some (x, r) => match go m r with
                              | Some (l, r') => Some (x :: l, r')
                              | None => None
                              end
             | None => None
             end
    end.

Lemma load_values_map (ms : list V) rest :
  load_values V K (length ms) (map (TVal V K) ms ++ rest) = Some (ms, rest).
Proof. induction ms as [|v ms IH]; [reflexivity|]. cbn [length map app load_values]. rewrite IH. reflexivity. Qed.

Lemma registered_in c : registered c = true <-> In c [CStraight; CVector; CExtracted; CCurvature; CDubins; CSpline].
Proof.
  split.
  - destruct c; cbn; intros H; try discriminate; auto 10.
  - cbn. intros [<-|[<-|[<-|[<-|[<-|[<-|[]]]]]]]; reflexivity.
Qed.

Lemma arity_members c : In c [CStraight; CVector; CExtracted; CCurvature; CDubins; CSpline] ->
  arity c = length (member_names c).
Proof. cbn. intros [<-|[<-|[<-|[<-|[<-|[<-|[]]]]]]]; reflexivity. Qed.

(* What is saved is loaded again: the class, the ranges, the sizes, the
   constraints, the members and the paths it is made of; what follows in the
   archive is left. *)
Theorem C104_roundtrip (o : obj) : wf o -> saveable o ->
  exists ts, save V K o = Ok ts /\
    forall fuel rest, depth V K o <= fuel -> load V K fuel (ts ++ rest) = Some (o, rest).
Proof.
  induction o as [c h ms subs IH] using obj_ind'. intros W S.
  inversion W as [c' h' ms' subs' B A WS]; subst c' h' ms' subs'.
  inversion S as [c' h' ms' subs' R T SS]; subst c' h' ms' subs'.
  assert (exists ts, save_list subs = Ok ts /\
    forall k rest, list_max (map (depth V K) subs) <= k -> load_list k (length subs) (ts ++ rest) = Some (subs, rest))
    as (ts & E & L).
  { clear -IH WS SS. induction subs as [|x subs IHl].
    - exists []. split; [reflexivity|]. intros. reflexivity.
    - inversion IH as [|y l Hx Hl]; subst y l.
      destruct (Hx (WS x (or_introl eq_refl)) (SS x (or_introl eq_refl))) as (a & Ea & La).
      destruct (IHl Hl (fun y Hy => WS y (or_intror Hy)) (fun y Hy => SS y (or_intror Hy))) as (b & Eb & Lb).
      exists (a ++ b). split.
      + unfold save_list. rewrite Ea. cbn [bind]. unfold save_list in Eb. rewrite Eb. reflexivity.
      + intros k rest Hk. cbn [map list_max fold_right] in Hk.
        cbn [length load_list]. rewrite <- app_assoc, La by lia. cbv beta iota.
        fold (load_list k). rewrite Lb by (unfold list_max; lia). reflexivity. }
  exists (TClass V K c :: [TRange V K (h_time h); TNat V K (h_size h); TNat V K (h_dsize h); TCons V K (h_cs h)]
          ++ TNat V K (length subs) :: ts ++ map (TVal V K) ms).
  split.
  - cbn [save]. rewrite (proj2 (registered_in c) R). unfold save_header. rewrite T. cbn [bind].
    unfold save_list in E. rewrite E. reflexivity.
  - intros fuel rest F. cbn [depth] in F. destruct fuel as [|k]; [lia|].
    cbn [app load load_header]. rewrite <- app_assoc.
    fold (load_list k). rewrite L by lia. rewrite (arity_members c R), <- A, load_values_map.
    do 3 f_equal. pose proof (built_param h B) as P. rewrite T in P.
    destruct h as [t p n m k' tp]. cbn in *. subst. reflexivity.
Qed.

(* Otherwise an exception is thrown. *)
Theorem C104_refuses (o : obj) : ~ saveable o -> save V K o = Throw.
Proof.
  induction o as [c h ms subs IH] using obj_ind'. intros N. cbn [save].
  destruct (registered c) eqn:R; [|reflexivity]. apply registered_in in R.
  unfold save_header. destruct (h_tp h) eqn:T; [reflexivity|]. cbn [bind].
  assert ((fix go (l : list obj) : res (list (tok V K)) :=
     match l with
     | [] => Ok []
     | x :: r => bind (save V K x) (fun a => bind (go r) (fun b => Ok (a ++ b)))
     end) subs = Throw) as E.
  { assert (~ forall x, In x subs -> saveable x) as N' by (intros H; apply N; constructor; assumption).
    clear -IH N'. induction IH as [|x subs Hx Hs IHs]; [exfalso; apply N'; intros x []|].
    assert (forall y : obj, save V K y = Throw \/ exists ts, save V K y = Ok ts) as D.
    { clear. induction y as [c h ms subs IH] using obj_ind'. cbn [save].
      destruct (registered c); [|auto]. unfold save_header. destruct (h_tp h); [auto|]. cbn [bind].
      match goal with |- context [bind ?g _] => assert (g = Throw \/ exists ts, g = Ok ts) as [G|[ts G]] end.
      { induction IH as [|x subs Hx Hs IHs]; [right; eexists; reflexivity|].
        destruct Hx as [->|[a ->]]; [auto|]. cbn [bind].
        destruct IHs as [->|[b ->]]; [auto|]. right. eexists. reflexivity. }
      - rewrite G. auto.
      - rewrite G. right. eexists. reflexivity. }
    destruct (D x) as [->|[a Ea]]; [reflexivity|]. rewrite Ea. cbn [bind].
    rewrite IHs; [reflexivity|]. intros H. apply N'. intros y [<-|Hy]; [|auto].
    destruct (D x) as [Ex|Ex]; [congruence|].
    (* x saved: it is saveable *)
    destruct x as [c h ms l]. clear -Ea.
    revert a Ea. generalize (Obj c h ms l). clear. intros o. induction o as [c h ms l IH] using obj_ind'.
    intros a Ea. cbn [save] in Ea. destruct (registered c) eqn:R; [|discriminate].
    unfold save_header in Ea. destruct (h_tp h) eqn:T; [discriminate|]. cbn [bind] in Ea.
    constructor; [apply registered_in; exact R|exact T|].
    match type of Ea with bind ?g _ = _ => destruct g as [ts| | |] eqn:G; try discriminate end. clear Ea.
    revert ts G. induction IH as [|x l Hx Hl IHl]; intros ts G y Hy; [destruct Hy|].
    destruct (save V K x) as [b| | |] eqn:Ex; try discriminate. cbn [bind] in G.
    match type of G with bind ?g _ = _ => destruct g as [ts'| | |] eqn:G'; try discriminate end.
    destruct Hy as [<-|Hy]; [eapply Hx; reflexivity|]. eapply IHl; [reflexivity|exact Hy]. }
  rewrite E. reflexivity.
Qed.

(* In particular one time parameterization in a path vector is enough. *)
Theorem C104_time_parameterized (c : cls) (h : phdr K) ms (l r : list obj) c' h' f ms' subs' :
  h_tp h' = Some f -> save V K (Obj c h ms (l ++ Obj c' h' ms' subs' :: r)) = Throw.
Proof.
  intros T. apply C104_refuses. intros S. inversion S as [? ? ? ? R T0 SS]; subst.
  specialize (SS (Obj c' h' ms' subs') (in_elt _ _ _)). inversion SS; subst. congruence.
Qed.
End S.

(* The interpolated paths, which the progressive and global path projectors
   make, cannot be saved. *)
Theorem C104_interpolated_refuted : exists o : obj nat nat,
  wf o /\ (forall c h ms subs, o = Obj c h ms subs -> h_tp h = None) /\ save nat nat o = Throw.
Proof.
  exists (Obj CInterpolated (h_create nat (0%Qc, 1%Qc) 2 2 None) [1; 2] []). split; [|split].
  - constructor; [constructor|reflexivity|intros x []].
  - intros c h ms subs [= <- <- <- <-]. reflexivity.
  - reflexivity.
Qed.

(* A vector of a straight path and of a reversed part of a spline. *)
Example C104_example :
  let r1 := (0%Qc, 1%Qc) in
  let s := Obj CSpline (h_create nat r1 2 2 (Some 7)) [1; 2; 3; 4; 5; 6] [] in
  let e := Obj CExtracted (h_set_range nat (h_create nat (0%Qc, 0%Qc) 2 2 (Some 7)) r1) [1] [s] in
  let p := Obj CStraight (h_create nat r1 2 2 None) [0; 8; 9] [] in
  let v := Obj CVector (h_create nat (0%Qc, (1 + 1)%Qc) 2 2 None) [] [p; e] in
  wf v /\ saveable v /\
  exists ts, save nat nat v = Ok ts /\ load nat nat 3 ts = Some (v, []).
Proof.
  cbv zeta.
  split; [|split].
  - repeat (constructor; try reflexivity; cbn [In]; intros; repeat match goal with H : _ \/ _ |- _ => destruct H end;
      subst; try contradiction).
  - repeat (constructor; try reflexivity; cbn [In]; auto 10; intros;
      repeat match goal with H : _ \/ _ |- _ => destruct H end; subst; try contradiction).
  - eexists. split; [reflexivity|]. reflexivity.
Qed.

Print Assumptions C104_roundtrip.
Print Assumptions C104_refuses.
Print Assumptions C104_time_parameterized.
Print Assumptions C104_interpolated_refuted.
