(* C92: turning radius, wheels and copies of car-like steering methods. *)
From Coq Require Import Reals List Bool Ascii Lra Lia.
From Verif Require Import Base XReal PolyProofs CurvModel DubinsModel RSModel CarModel CarSpec.
Import ListNotations.
Open Scope R_scope.

Lemma name_eqb_eq a : forall b, name_eqb a b = true <-> a = b.
Proof.
  induction a as [|x a IH]; intros [|y b]; cbn; try (split; congruence). rewrite andb_true_iff, IH, Ascii.eqb_eq. split; [intros [-> ->]; reflexivity | intros [= -> ->]; auto].
Qed.
Lemma name_eqb_neq a b : name_eqb a b = false <-> a <> b.
Proof. rewrite <- name_eqb_eq. destruct (name_eqb a b); split; congruence. Qed.

(* ------------------------------------------------------------------ names *)
Lemma split_not_nil p : split p <> [].
Proof. destruct p as [|c p]; cbn; [discriminate|]. destruct (split p); [discriminate|]. destruct (Ascii.eqb c ","); discriminate. Qed.
Lemma split_plain n : ~ In ","%char n -> split n = [n].
Proof.
  induction n as [|c n IH]; intros H; [reflexivity|]. cbn [split]. rewrite IH by (intros K; apply H; right; exact K).
  destruct (Ascii.eqb_spec c ","); [exfalso; apply H; left; congruence | reflexivity].
Qed.
Lemma split_comma n t : ~ In ","%char n -> split (n ++ ","%char :: t) = n :: split t.
Proof.
  induction n as [|c n IH]; intros H.
  - cbn. destruct (split t) eqn:E; [exfalso; exact (split_not_nil t E) | reflexivity].
  - cbn [app split]. rewrite IH by (intros K; apply H; right; exact K). destruct (Ascii.eqb_spec c ","); [exfalso; apply H; left; congruence | reflexivity].
Qed.
Lemma listed_split ns t : listed ns t -> split t = ns.
Proof. induction 1; [apply split_plain; assumption|]. rewrite split_comma by assumption. congruence. Qed.
Lemma split_listed t : listed (split t) t.
Proof.
  induction t as [|c t IH]; [constructor; intros []|]. cbn [split]. destruct (split t) as [|w ws] eqn:E; [exfalso; exact (split_not_nil t E)|].
  destruct (Ascii.eqb_spec c ",") as [->|N].
  - apply (listed_more [] (w :: ws) t); [intros [] | exact IH].
  - inversion IH as [n Hn|n ns t' Hn Hl]; subst.
    + constructor. intros [K|K]; [congruence | contradiction].
    + apply (listed_more (c :: w) ws t'); [intros [K|K]; [congruence | contradiction] | exact Hl].
Qed.

(* ----------------------------------------------------------------- wheels *)
Definition fits (n : name) (js : list joint) : Prop := forall j, In j js -> j_name j = n -> j_size j = 1%nat.
Lemma find_ok n js : fits n js -> exists ws, find_wheels n js = Ok (negb (Nat.eqb (length ws) 0), ws) /\ named n js ws /\ (ws = [] <-> forall j, In j js -> j_name j <> n).
Proof.
  induction js as [|j js IH]; intros F; [exists []; split; [reflexivity|]; split; [constructor|]; split; [intros _ ? [] | reflexivity]|].
  destruct IH as [ws [E [N L]]]; [intros k K; apply F; right; exact K|]. cbn [find_wheels]. destruct (name_eqb (j_name j) n) eqn:Ej.
  - apply name_eqb_eq in Ej. rewrite (F j (or_introl eq_refl) Ej). cbn [Nat.eqb negb]. rewrite E. cbn [bind snd]. exists (j_wheel j :: ws).
    split; [reflexivity|]. split; [constructor; assumption|]. split; [discriminate|]. intros H. exfalso. exact (H j (or_introl eq_refl) Ej).
  - apply name_eqb_neq in Ej. rewrite E. exists ws. split; [reflexivity|]. split; [constructor; assumption|]. rewrite L. split.
    + intros H k [<-|K]; [exact Ej | exact (H k K)].
    + intros H k K. exact (H k (or_intror K)).
Qed.
Lemma find_bad n js : ~ fits n js -> find_wheels n js = Throw.
Proof.
  induction js as [|j js IH]; intros F; [exfalso; apply F; intros ? []|]. cbn [find_wheels]. destruct (name_eqb (j_name j) n) eqn:Ej.
  - apply name_eqb_eq in Ej. destruct (Nat.eqb_spec (j_size j) 1) as [E|E]; cbn [negb]; [|reflexivity]. rewrite IH; [reflexivity|].
    intros G. apply F. intros k [<-|K] Nk; [exact E | exact (G k K Nk)].
  - apply name_eqb_neq in Ej. apply IH. intros G. apply F. intros k [<-|K] Nk; [contradiction | exact (G k K Nk)].
Qed.
Lemma fits_dec n js : fits n js \/ exists j, In j js /\ j_name j = n /\ j_size j <> 1%nat.
Proof.
  induction js as [|j js [F|[k [K1 K2]]]]; [left; intros ? [] | | right; exists k; split; [right; exact K1 | exact K2]].
  destruct (name_eqb (j_name j) n) eqn:Ej; [apply name_eqb_eq in Ej | apply name_eqb_neq in Ej].
  - destruct (Nat.eq_dec (j_size j) 1) as [E|E]; [|right; exists j; split; [left; reflexivity | auto]].
    left. intros k [<-|K] Nk; [exact E | exact (F k K Nk)].
  - left. intros k [<-|K] Nk; [contradiction | exact (F k K Nk)].
Qed.
(* The wheels are the joints whose names are listed, in the order of the list;
   an exception is thrown exactly when a name is that of no joint or of a joint
   that is not of dimension 1. *)
Theorem C92_wheels text js names : listed names text ->
  ((forall n, In n names -> ~ bad js n) -> exists ws, get_wheels text js = Ok ws /\ gathers js names ws) /\
  (get_wheels text js = Throw <-> exists n, In n names /\ bad js n).
Proof.
  intros Ls. unfold get_wheels. rewrite (listed_split _ _ Ls). clear Ls.
  assert (A : (forall n, In n names -> ~ bad js n) -> exists ws, all_wheels names js = Ok ws /\ gathers js names ws).
  { induction names as [|n ns IH]; intros H; [exists []; split; [reflexivity | constructor]|].
    destruct IH as [ws [E G]]; [intros k K; apply H; right; exact K|]. cbn [all_wheels]. destruct (name_eqb n []) eqn:En.
    - apply name_eqb_eq in En. subst n. exists ws. split; [exact E | constructor; exact G].
    - apply name_eqb_neq in En. destruct (fits_dec n js) as [F|B]; [|exfalso; apply (H n (or_introl eq_refl)); split; auto].
      destruct (find_ok n js F) as [w [Ew [Nw Lw]]]. rewrite Ew. cbn [bind fst snd]. destruct w as [|w0 w]; [exfalso; apply (H n (or_introl eq_refl)); split; [exact En | left; apply Lw; reflexivity]|].
      cbn [length Nat.eqb negb]. rewrite E. cbn [bind]. eexists. split; [reflexivity | apply gathers_name; assumption]. }
  split; [exact A|]. split.
  - clear A. induction names as [|n ns IH]; [discriminate|]. cbn [all_wheels]. destruct (name_eqb n []) eqn:En.
    + intros T. destruct (IH T) as [k [K1 K2]]. exists k. split; [right; exact K1 | exact K2].
    + apply name_eqb_neq in En. destruct (fits_dec n js) as [F|B]; [|intros _; exists n; split; [left; reflexivity | split; auto]].
      destruct (find_ok n js F) as [w [Ew [Nw Lw]]]. rewrite Ew. cbn [bind fst snd]. destruct w as [|w0 w]; [intros _; exists n; split; [left; reflexivity | split; [exact En | left; apply Lw; reflexivity]]|].
      cbn [length Nat.eqb negb]. destruct (all_wheels ns js) eqn:E; cbn [bind]; try discriminate. intros _. destruct (IH eq_refl) as [k [K1 K2]]. exists k. split; [right; exact K1 | exact K2].
  - intros [k [K1 [K2 K3]]]. clear A. induction names as [|n ns IH]; [destruct K1|]. cbn [all_wheels]. destruct K1 as [->|K1].
    + destruct (name_eqb k []) eqn:En; [apply name_eqb_eq in En; contradiction|]. destruct K3 as [K3|[j [J1 [J2 J3]]]].
      * destruct (find_ok k js) as [w [Ew [_ Lw]]]; [intros j J1 J2; exfalso; exact (K3 j J1 J2)|]. apply Lw in K3. subst w. rewrite Ew. reflexivity.
      * rewrite find_bad; [reflexivity|]. intros F. exact (J3 (F j J1 J2)).
    + destruct (name_eqb n []); [exact (IH K1)|]. destruct (find_wheels n js) as [[b w]| | |] eqn:Ef; try reflexivity; try (cbn [bind]).
      * cbn [fst snd]. destruct b; cbn [negb]; [|reflexivity]. rewrite (IH K1). reflexivity.
      * exfalso. destruct (fits_dec n js) as [F|[j [J1 [J2 J3]]]]; [destruct (find_ok n js F) as [w [Ew _]]; congruence|]. rewrite find_bad in Ef; [discriminate | intros F; exact (J3 (F j J1 J2))].
      * exfalso. destruct (fits_dec n js) as [F|[j [J1 [J2 J3]]]]; [destruct (find_ok n js F) as [w [Ew _]]; congruence|]. rewrite find_bad in Ef; [discriminate | intros F; exact (J3 (F j J1 J2))].
Qed.
(* Every text is such a list, of one way only. *)
Theorem C92_names text : exists! names, listed names text.
Proof. exists (split text). split; [apply split_listed | intros ns L; apply listed_split; exact L]. Qed.

(* ---------------------------------------------------------- turning radius *)
(* A car made from a problem has the radius asked for, which is positive, or an
   exception is thrown ... *)
Theorem C92_create text radius js ws : get_wheels text js = Ok ws ->
  (0 < radius -> car_create text radius js = Ok {| rho := radius; wheels := ws |}) /\ (radius <= 0 -> car_create text radius js = Throw).
Proof. intros E. unfold car_create, turning_radius. rewrite E. cbn [bind wheels]. split; intros H; destruct (rleb_spec radius 0); try lra; reflexivity. Qed.
(* ... and keeps a positive radius whatever is done with it; a copy has the
   radius of the original. *)
Theorem C92_radius ops c : 0 < rho c -> 0 < rho (fold_left do_op ops c) /\
  rho (car_copy c) = rho c /\ rho (dist_copy c) = rho c /\
  forall r, 0 < r -> turning_radius c r = Ok {| rho := r; wheels := wheels c |}.
Proof.
  intros H. split; [|split; [reflexivity|]; split; [reflexivity|]].
  - revert c H. induction ops as [|o ops IH]; intros c H; [exact H|]. cbn [fold_left]. apply IH. destruct o as [r|ws|]; cbn [do_op]; [|exact H | exact H].
    unfold turning_radius. destruct (rleb_spec r 0); [exact H | cbn; lra].
  - intros r Hr. unfold turning_radius. destruct (rleb_spec r 0); [lra | reflexivity].
Qed.
(* The other constructor accepts any radius. *)
Theorem C92_radius_refuted ws : exists r, r <= 0 /\ rho (car_create_with r ws) = r.
Proof. exists (-1). split; [lra | reflexivity]. Qed.

(* ----------------------------------------------------------------- copies *)
(* A copy of the distance is the same distance; a copy of a steering method
   without wheels is the same steering method. *)
Theorem C92_copy_partial dist c q1 q2 :
  car_dist dist (dist_copy c) q1 q2 = car_dist dist c q1 q2 /\
  (wheels c = [] -> car_steer dist (car_copy c) q1 q2 = car_steer dist c q1 q2).
Proof. split; [reflexivity|]. intros E. destruct c as [r ws]. cbn [wheels] in E. subst ws. reflexivity. Qed.
(* A copy of a steering method loses the wheels: staying at the same place with
   any wheel, the original sets the wheel straight and the copy turns it as any
   other joint; the length of the path of the copy is no longer the distance. *)
Theorem C92_copy_refuted r w (q : cfg) v1 v2 : 0 < r -> cc q * cc q + cs q * cs q = 1 -> v1 <> v2 ->
  let at_ v := {| cx := cx q; cy := cy q; cc := cc q; cs := cs q; cj := upd (cj q) (w_rank w) v |} in
  let dist a b := Rabs (cj a (w_rank w) - cj b (w_rank w)) in
  let c := {| rho := r; wheels := [w] |} in
  exists p p', car_steer dist c (at_ v1) (at_ v2) = Ok [p] /\ car_steer dist (car_copy c) (at_ v1) (at_ v2) = Ok [p'] /\
    (forall t, cj (cc_compute p t) (w_rank w) = mean_bounds w) /\
    cj (cc_compute p' (p_t1 p')) (w_rank w) = v2 /\
    car_dist dist c (at_ v1) (at_ v2) = Ok 0 /\ p_t1 p = 0 /\ p_t1 p' = Rabs (v1 - v2) /\ 0 < p_t1 p'.
Proof.
  intros Hr U Hv at_ dist c.
  assert (P : rs_params r (at_ v1) (at_ v2) = (0, 0, 1, 0, 0)).
  { unfold rs_params, rotate. cbn [at_ cx cy cc cs]. unfold atan2.
    replace (cc q * cc q + cs q * cs q) with 1 by lra. replace (- cc q * cs q + cs q * cc q) with 0 by ring.
    destruct (rltb_spec 0 1); [|lra]. replace (0 / 1) with 0 by field. rewrite atan_0.
    f_equal; f_equal; f_equal; f_equal; field; lra. }
  assert (N : near 0 0 0 = true) by (unfold near; destruct (rltb_spec (0 * 0 + 0 * 0 + 0 * 0) (/ 100000000)); [reflexivity | lra]).
  assert (E1 : rs_extra dist [w] (at_ v1) (at_ v2) = 0).
  { unfold rs_extra, dist. cbn [map set_all cj at_]. rewrite !upd_eq. rewrite Rminus_diag_eq by reflexivity. apply Rabs_R0. }
  assert (E2 : rs_extra dist [] (at_ v1) (at_ v2) = Rabs (v1 - v2)).
  { unfold rs_extra, dist. cbn [map set_all cj at_]. rewrite !upd_eq. reflexivity. }
  assert (W : wheel_values 0 [w] = Ok [(w_rank w, mean_bounds w)]).
  { unfold wheel_values, wheel_value. destruct (reqb_spec 0 0); [reflexivity | contradiction]. }
  exists (cc_create (at_ v1) (at_ v2) 0 0 0 [(w_rank w, mean_bounds w)]), (cc_create (at_ v1) (at_ v2) 0 (Rabs (v1 - v2)) 0 []).
  assert (Pos : 0 < Rabs (v1 - v2)) by (apply Rabs_pos_lt; lra).
  split; [|split; [|split; [|split; [|split; [|split; [|split]]]]]].
  - unfold car_steer, rs_steer, rs_path, c. cbn [rho wheels]. rewrite P, N, E1, W. reflexivity.
  - unfold car_steer, rs_steer, rs_path, c. cbn [car_copy rho wheels]. rewrite P, N, E2. reflexivity.
  - intros t. unfold cc_create, set_end. unfold cc_compute at 1. cbn [p_wheels p_init p_end set_all cj]. apply upd_eq.
  - unfold cc_create, set_end. unfold cc_compute, abscissa, param_length. cbn [p_wheels p_init p_end p_t0 p_t1 set_all cj at_]. rewrite Rabs_Rabsolu.
    destruct (reqb_spec (Rabs (v1 - v2) - 0) 0); [lra|]. rewrite !upd_eq. replace ((Rabs (v1 - v2) - 0) / (Rabs (v1 - v2) - 0)) with 1 by (field; lra). ring.
  - unfold car_dist, rs_dist, rs_distance, c. cbn [rho wheels]. rewrite P, N, E1. reflexivity.
  - cbn. apply Rabs_R0.
  - cbn. apply Rabs_Rabsolu.
  - cbn. rewrite Rabs_Rabsolu. exact Pos.
Qed.

(* ---------------------------------------------------------------- examples *)
Definition fl : name := ["f"; "l"]%char.
Definition fr : name := ["f"; "r"]%char.
Definition some_wheel (k : nat) : wheel := {| w_rank := k; w_lo := -1; w_up := 1; w_x := 2; w_y := 0 |}.
Definition a_car : list joint :=
  [ {| j_name := ["a"]%char; j_size := 2; j_wheel := some_wheel 4 |}; {| j_name := fl; j_size := 1; j_wheel := some_wheel 6 |}; {| j_name := fr; j_size := 1; j_wheel := some_wheel 7 |} ].
Example two_wheels : get_wheels (fr ++ ","%char :: ","%char :: fl) a_car = Ok [some_wheel 7; some_wheel 6] /\ listed [fr; []; fl] (fr ++ ","%char :: ","%char :: fl).
Proof.
  split; [reflexivity|]. assert (P : forall n, forallb (fun c => negb (Ascii.eqb c ",")) n = true -> ~ In ","%char n).
  { intros n H I. rewrite forallb_forall in H. specialize (H _ I). discriminate. }
  apply listed_more; [apply P; reflexivity|]. apply (listed_more [] [fl] fl); [intros [] | constructor; apply P; reflexivity].
Qed.
Example no_such_wheel : get_wheels ["b"]%char a_car = Throw /\ get_wheels ["a"]%char a_car = Throw /\ get_wheels [] a_car = Ok [].
Proof. repeat split. Qed.

Print Assumptions C92_wheels.
Print Assumptions C92_names.
Print Assumptions C92_create.
Print Assumptions C92_radius.
Print Assumptions C92_radius_refuted.
Print Assumptions C92_copy_partial.
Print Assumptions C92_copy_refuted.
