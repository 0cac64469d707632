(* Splines in the Bernstein basis: src/path/spline.cc, include/hpp/core/path/spline.hh,
   include/hpp/core/path/math.hh, src/steering-method/spline.cc.

   Simplifications common to the file:
   - numbers are reals, no rounding; integers (size_type) do not overflow;
   - the configuration space is a vector space: base + velocity is the sum and
     difference (q, q') is q - q';
   - no time parameterization and no constraint: length () = paramLength ();
   - matrices and vectors are functions of the row and column indices, read only
     for indices within the sizes of the code. *)
From Coq Require Import Reals Arith ZArith List Bool.
From Verif Require Import Base XReal.
Import ListNotations.
Open Scope R_scope.

(* for (p = 0; p < n; ++p) res += f p, from res = 0. *)
Fixpoint rsum (f : nat -> R) (n : nat) : R :=
  match n with O => 0 | S m => rsum f m + f m end.
(* for (p = lo; p <= hi; ++p) res += f p. *)
Definition rsum_between (lo hi : nat) (f : nat -> R) : R := rsum (fun p => f (lo + p)%nat) (S hi - lo).

(* ------------------------------------------------ math.hh, lines 38-58 *)
(* factorials(): ret(0) = 1; ret(i) = ret(i-1) * i.  The table of N entries is
   read by the code below at indices < N only. *)
Fixpoint factors (i : nat) : nat :=
  match i with O => 1%nat | S j => (factors j * i)%nat end.
(* binomial (n, k): integer division. *)
Definition binom (n k : nat) : nat := (factors n / (factors k * factors (n - k)))%nat.

(* ((e % 2 == 0 ? 1 : -1) * b), line 152. *)
Definition signed (e b : nat) : R := if Nat.even e then INR b else - INR b.

(* ------------------------------------------ spline.cc, lines 132-159 *)
(* derivative (k, t, res), entry i.  size_type is signed: max (0, k + i - Degree)
   is the truncated subtraction.  powersOfT and powersOfOneMinusT are tables of
   powers. *)
Definition bern_der (n k : nat) (t : R) (i : nat) : R :=
  if (n <? k)%nat then 0
  else
    rsum_between (k + i - n) (Nat.min i k) (fun p =>
      let ip := (i - p)%nat in
      signed (k - p) (binom k p) * t ^ ip * (1 - t) ^ (n - k - ip)
      / INR (factors ip * factors (n - k - ip)))
    * INR (factors n).
(* eval (t, res), lines 127-131. *)
Definition bern_eval (n : nat) (t : R) (i : nat) : R := bern_der n 0 t i.

(* integral (k, res), entry (i, j): lines 160-198. *)
Definition bern_integral (n k i j : nat) : R :=
  if (n <? k)%nat then 0
  else
    let m := (n - k)%nat in
    rsum_between (k + i - n) (Nat.min i k) (fun p =>
      rsum_between (k + j - n) (Nat.min j k) (fun q =>
        let alpha0 := INR (binom m (i - p) * binom m (j - q))
                      / INR (binom (2 * m) (i - p + (j - q)) * (2 * m + 1)) in
        signed (2 * k - p - q) (binom k p * binom k q) * alpha0))
    * INR (factors n / factors m).

(* absDerBounds (res), lines 199-203. *)
Definition abs_der_bound (n i : nat) : R := INR (2 * n).

(* absBound (up), entry i: lines 249-273.  [self_pow i] is iToThePowerOfI(i): the
   loop multiplies 1 by i, i times, for 1 <= i < Degree; other entries stay 1. *)
Definition self_pow (n i : nat) : nat := if ((1 <=? i) && (i <? n))%nat then (i ^ i)%nat else 1%nat.
Definition abs_bound (n : nat) (upb : bool) (i : nat) : R :=
  let inner :=
    let p := if upb then (self_pow n i * self_pow n (n - i - 1))%nat else (self_pow n (n - i) * self_pow n (i - 1))%nat in
    INR (binom n i * p) / INR (self_pow n (n - 1)) in
  let side := if (n =? 2)%nat then 2 else INR (self_pow n (n - 2)) / INR n ^ (n - 3) in
  if (1 <? n)%nat then
    if ((2 <=? i) && (i <? n - 1))%nat then inner
    else if ((i =? 1) || (i =? n - 1))%nat then side
    else INR n
  else INR n.

(* std::floor and std::ceil. *)
Definition rfloor (x : R) : Z := Int_part x.
Definition rceil (x : R) : Z := (- Int_part (- x))%Z.

(* res.segment (r1, nr) = res.segment (r1, nr).cwiseMax (b.segment (r1, nr)) with
   nr = max (r2 - r1 + 1, 0): lines 236-238 and 244-246. *)
Definition raise (r1 r2 : Z) (b : nat -> R) (res : nat -> R) : nat -> R :=
  fun i => if ((r1 <=? Z.of_nat i) && (Z.of_nat i <=? r2))%Z then Rmax (res i) (b i) else res i.
(* res (j) = std::max (res (j), v), when c. *)
Definition raise_at (c : bool) (j : nat) (v : R) (res : nat -> R) : nat -> R :=
  fun i => if (c && (i =? j)%nat)%bool then Rmax (res i) v else res i.

(* bound (1, t0, t1, res): lines 204-248. *)
Definition bern_bound (n : nat) (t0 t1 : R) : nat -> R :=
  let b_up := abs_bound n true in
  let b_um := abs_bound n false in
  let d := INR n in
  let res := fun i => Rmax (Rabs (bern_der n 1 t0 i)) (Rabs (bern_der n 1 t1 i)) in
  let res := raise_at (rltb (t0 * d) 2 && rltb 2 (t1 * d)) 1 (b_up 1%nat) res in
  let res := raise_at (rltb (t0 * d) (d - 2) && rltb (d - 2) (t1 * d)) (n - 1) (b_up (n - 1)%nat) res in
  if (3 <? n)%nat then
    let res := raise (Z.max (rceil (t0 * (d - 1))) 2) (rfloor (t1 * (d - 1))) b_up res in
    raise (rceil (1 + t0 * (d - 1))) (Z.min (rfloor (1 + t1 * (d - 1))) (Z.of_nat n - 2)) b_um res
  else res.

(* ------------------------------------------------------------ the path *)
(* spline.hh, lines 274-327: the range is the time range of the path; powersOfT_
   is the table of the powers of length () filled by the constructor. *)
Record spline := mkSpline {
  sp_deg : nat;
  sp_nv : nat;                          (* parameterSize_ *)
  sp_base : nat -> R;
  sp_par : nat -> nat -> R;             (* parameters_ (control point, dof) *)
  sp_t0 : R; sp_t1 : R                  (* timeRange () *)
}.
Definition sp_len (s : spline) : R := sp_t1 s - sp_t0 s.

(* params.transpose () * b: lines 467, 387. *)
Definition combine_par (s : spline) (b : nat -> R) (d : nat) : R :=
  rsum (fun i => sp_par s i d * b i) (S (sp_deg s)).

(* value (base, params, u, res, velocity): lines 454-470. *)
Definition sp_value (s : spline) (u : R) (d : nat) : R :=
  sp_base s d + combine_par s (bern_der (sp_deg s) 0 u) d.

(* impl_compute (res, s): lines 352-372; the asserts allow an excess of
   dummy_precision that is clamped. *)
Definition sp_compute (s : spline) (t : R) (d : nat) : R :=
  if reqb (sp_len s) 0 then sp_value s 0 d
  else
    let u := (t - sp_t0 s) / sp_len s in
    let u := if rltb u 0 then 0 else if rltb 1 u then 1 else u in
    sp_value s u d.

(* basisFunctionDerivative (order, u, res): lines 313-325. *)
Definition basis_der (s : spline) (k : nat) (u : R) (i : nat) : R :=
  if reqb (sp_len s) 0 then 0 else bern_der (sp_deg s) k u i / sp_len s ^ k.

Definition sp_ratio (s : spline) (t : R) : R :=
  if reqb (sp_len s) 0 then 0 else (t - sp_t0 s) / sp_len s.

(* impl_derivative (res, s, order): lines 374-387 (vector space). *)
Definition sp_derivative (s : spline) (t : R) (k d : nat) : R :=
  combine_par s (basis_der s k (sp_ratio s t)) d.

(* impl_paramDerivative (res, s): lines 398-405. *)
Definition sp_param_derivative (s : spline) (t : R) (i : nat) : R := basis_der s 0 (sp_ratio s t) i.

(* impl_paramIntegrate (dParam): lines 415-421; dParam is (dP_0^T, ..., dP_n^T). *)
Definition sp_param_integrate (s : spline) (dp : nat -> R) : spline :=
  mkSpline (sp_deg s) (sp_nv s) (sp_base s) (fun i d => sp_par s i d + dp (i * sp_nv s + d)%nat) (sp_t0 s) (sp_t1 s).

(* maxVelocity (res): lines 327-333.  A division by a zero length gives an
   infinite or undefined value, abstracted by NaN. *)
Definition sp_max_velocity (s : spline) (d : nat) : xr :=
  if reqb (sp_len s) 0 then NaN
  else Fin (rsum (fun i => abs_der_bound (sp_deg s) i / sp_len s * Rabs (sp_par s i d)) (S (sp_deg s))).

(* impl_velocityBound (res, t0, t1): lines 423-434; same abstraction. *)
Definition sp_velocity_bound (s : spline) (t0 t1 : R) (d : nat) : xr :=
  if reqb (sp_len s) 0 then NaN
  else
    let ub := bern_bound (sp_deg s) (sp_ratio s t0) (sp_ratio s t1) in
    Fin (rsum (fun i => Rabs (sp_par s i d) * (ub i / sp_len s)) (S (sp_deg s))).

(* squaredNormBasisFunctionIntegral (order, Ic): lines 335-350. *)
Definition norm_integral (s : spline) (k i j : nat) : R :=
  if reqb (sp_len s) 0 then 0
  else if (0 <? k)%nat then bern_integral (sp_deg s) k i j / sp_len s ^ (2 * k - 1)
  else bern_integral (sp_deg s) k i j * sp_len s ^ 1.

(* squaredNormIntegral (order): lines 436-443. *)
Definition sp_norm_integral (s : spline) (k : nat) : R :=
  rsum (fun i => rsum (fun j =>
    rsum (fun d => sp_par s i d * sp_par s j d) (sp_nv s) * norm_integral s k i j)
    (S (sp_deg s))) (S (sp_deg s)).

(* squaredNormIntegralDerivative (order, res): lines 445-452.  tmp is
   parameters_^T * Ic, column major: entry j * nv + d of tmp.data () is (d, j). *)
Definition sp_norm_gradient (s : spline) (k : nat) (r : nat) : R :=
  let d := (r mod sp_nv s)%nat in
  let j := (r / sp_nv s)%nat in
  2 * rsum (fun i => sp_par s i d * norm_integral s k i j) (S (sp_deg s)).

(* -------------------------------- src/steering-method/spline.cc *)
(* Rows of the system coeffs * P = rhs: lines 107-124.  Each row has the
   coefficients of the control points and the right hand side for each dof.
   [ders] are the pairs (order, derivative). *)
Definition sm_rows (s : spline) (q1 : nat -> R) (d1 : list (nat * (nat -> R))) (q2 : nat -> R) (d2 : list (nat * (nat -> R)))
  : list ((nat -> R) * (nat -> R)) :=
  [(basis_der s 0 0, fun d => q1 d - sp_base s d)]
  ++ map (fun od => (basis_der s (fst od) 0, snd od)) d1
  ++ [(basis_der s 0 1, fun d => q2 d - sp_base s d)]
  ++ map (fun od => (basis_der s (fst od) 1, snd od)) d2.

(* impl_compute (q1, order1, derivatives1, q2, order2, derivatives2, length):
   lines 73-133.  [dist] is the value of the distance of the problem between q1
   and q2; [solve] is JacobiSVD::solve. *)
Definition sm_spline (solve : list ((nat -> R) * (nat -> R)) -> nat -> nat -> R) (n nv : nat) (dist : R)
  (q1 : nat -> R) (d1 : list (nat * (nat -> R))) (q2 : nat -> R) (d2 : list (nat * (nat -> R))) (len : R) : spline :=
  let len := if rleb len 0 then dist else len in
  let p := mkSpline n nv q1 (fun _ _ => 0) 0 len in
  mkSpline n nv q1 (solve (sm_rows p q1 d1 q2 d2)) 0 len.

(* impl_compute (q1, q2): lines 41-56: null derivatives of orders 1 to
   (SplineOrder + 1 - 2) / 2 at both ends. *)
Definition sm_null (n : nat) : list (nat * (nat -> R)) :=
  map (fun i => (S i, fun _ => 0)) (seq 0 ((n + 1 - 2) / 2)).
Definition sm_default (solve : list ((nat -> R) * (nat -> R)) -> nat -> nat -> R) (n nv : nat) (dist : R) (q1 q2 : nat -> R) : spline :=
  sm_spline solve n nv dist q1 (sm_null n) q2 (sm_null n) (-1).
