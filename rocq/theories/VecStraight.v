(* The straight paths of PathModel.v, as sub-paths of a path vector, satisfy
   what VecSpec.v assumes of sub-paths; the straight steering method. *)
From Verif Require Import Base QcTac PathModel PathSpec PathProofs PathProofs2 PathProofs3 PathProofs4
  VecModel VecSpec ShortcutSpec.
Open Scope Qc_scope.

Section Straight.
Variable conf : Type.
Variable interp : conf -> conf -> Qc -> conf.

(* a straight path without constraints: time range and end configurations *)
Record seg := mkSeg { g_rng : itv; g_init : conf; g_fin : conf }.
Definition to_path (s : seg) : path conf := Straight (mk_hdr (g_rng s) None) (g_init s) (g_fin s).
Definition g_ev (s : seg) (t : Qc) : option conf :=
  match eval conf interp (to_path s) t with Ok o => o | _ => None end.
Definition g_cut (s : seg) (I : itv) : res seg :=
  match extract conf interp (to_path s) I with
  | Ok (Straight h a b) => Ok (mkSeg (tr h) a b)
  | Throw => Throw
  | Fuel => Fuel
  | _ => UB
  end.
Definition g_ok (s : seg) : Prop :=
  fst (g_rng s) <= snd (g_rng s) /\ (fst (g_rng s) = snd (g_rng s) -> g_init s = g_fin s).

(* src/steering-method/straight.cc 41-55, without constraints *)
Definition g_steer (dist : conf -> conf -> Qc) (q q' : conf) : option seg :=
  Some (mkSeg (0, dist q q') q q').

Hypothesis Hgeo : geodesic interp.

Lemma g_ev_val s t : g_ev s t = Some (sval conf interp (g_rng s) (g_init s) (g_fin s) t).
Proof.
  unfold g_ev, to_path. rewrite (straight_eval conf interp Hgeo) by apply bare_mk. reflexivity.
Qed.

Lemma g_cut_val s a b : a <= b ->
  g_cut s (a, b) = Ok (mkSeg (0, b - a) (sval conf interp (g_rng s) (g_init s) (g_fin s) a)
                                        (sval conf interp (g_rng s) (g_init s) (g_fin s) b)).
Proof.
  intros Hab. unfold g_cut, to_path, extract. cbn [ops fst]. unfold ext_wrap. cbn [hd_of mk_hdr tp].
  destruct (straight_extract_total conf interp (mk_hdr (g_rng s) None) (g_init s) (g_fin s) (a, b) (bare_mk conf _)) as (p & E).
  rewrite E. apply (straight_extract_ok conf interp Hgeo) in E; [|apply bare_mk]. subst p.
  cbn [mk_hdr tr fst snd]. destruct (qleb_spec a b) as [_|K]; [reflexivity|].
  exfalso. exact (Qclt_not_le _ _ K Hab).
Qed.

Lemma straight_honest : honest g_init g_fin g_rng g_ev g_cut g_ok.
Proof.
  constructor.
  - intros p (H & _). exact H.
  - intros p (H & Z). rewrite g_ev_val. unfold sval. f_equal.
    qcaseeq (ilen (g_rng p)) 0; [reflexivity|].
    replace (fst (g_rng p) - fst (g_rng p)) with 0 by qc.
    replace (0 / ilen (g_rng p)) with 0 by (field; exact Hc). apply Hgeo.
  - intros p (H & Z). rewrite g_ev_val. unfold sval. f_equal. unfold ilen.
    qcaseeq (snd (g_rng p) - fst (g_rng p)) 0; [apply Z; qc|].
    replace ((snd (g_rng p) - fst (g_rng p)) / (snd (g_rng p) - fst (g_rng p))) with 1 by (field; exact Hc).
    apply Hgeo.
  - intros p a b p' (H & Z) H1 H2 H3 E. rewrite g_cut_val in E by exact H2. injection E as <-.
    rewrite !g_ev_val. repeat split; cbn [g_rng g_init g_fin fst snd].
    + qc.
    + intros E0. replace b with a by qc. reflexivity.
    + unfold plen. cbn [g_rng fst snd]. qc.
Qed.

Lemma straight_defined : cut_defined g_rng g_cut g_ok.
Proof. intros p a b _ _ H _. rewrite g_cut_val by exact H. split; discriminate. Qed.

Lemma straight_steers dist : (forall q q', 0 <= dist q q') -> (forall q q', dist q q' = 0 -> q = q') ->
  steers g_init g_fin (g_steer dist) g_ok.
Proof.
  intros D0 D1 q q' p E. injection E as <-. repeat split; cbn [g_rng g_init g_fin fst snd]; [apply D0|].
  intros E. apply D1. symmetry. exact E.
Qed.

End Straight.

Arguments mkSeg {conf} g_rng g_init g_fin.
Arguments g_rng {conf} s.
Arguments g_init {conf} s.
Arguments g_fin {conf} s.
Arguments g_ok {conf} s.
Arguments g_steer {conf} dist q q'.
