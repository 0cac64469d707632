(* Random configurations: src/configuration-shooter/uniform.cc,
   include/hpp/core/configuration-shooter/uniform-tpl.hxx,
   src/configuration-shooter/gaussian.cc and .hh, and the factories of
   src/problem-solver.cc.  Doubles are reals with infinities and NaN, without
   rounding. *)
From Coq Require Import Reals List Bool.
From Verif Require Import Base XReal.
Import ListNotations.
Open Scope R_scope.

(* Lie groups of the joints; a Cartesian product is made of at most two
   factors in pinocchio, of any number here *)
Inductive group := Vect (n : nat) | SOn (n : nat) | SEn (n : nat) | Prod (a b : group).
(* NQ and NV of the Lie groups (external): SO(2) is a point of the circle,
   SO(3) a quaternion *)
Fixpoint nq (g : group) : nat :=
  match g with
  | Vect n => n
  | SOn n => if Nat.eqb n 2 then 2 else 4
  | SEn n => n + (if Nat.eqb n 2 then 2 else 4)
  | Prod a b => nq a + nq b
  end%nat.
Fixpoint nv (g : group) : nat :=
  match g with
  | Vect n => n
  | SOn n => if Nat.eqb n 2 then 1 else 3
  | SEn n => n + (if Nat.eqb n 2 then 1 else 3)
  | Prod a b => nv a + nv b
  end%nat.
Definition bounds := list (xr * xr).   (* lower and upper bound of each variable *)
Record device := { joints : list (group * bounds); extra : bounds }.
Definition jnq (d : device) : nat := fold_right (fun j n => (nq (fst j) + n)%nat) 0%nat (joints d).
Definition jnv (d : device) : nat := fold_right (fun j n => (nv (fst j) + n)%nat) 0%nat (joints d).
Definition config_size (d : device) : nat := (jnq d + length (extra d))%nat.
Definition number_dof (d : device) : nat := (jnv d + length (extra d))%nat.

Definition xlt0 (x : xr) : bool := match x with Fin r => rltb r 0 | MInf => true | _ => false end.
Definition is_pinf (x : xr) : bool := match x with PInf => true | _ => false end.
Definition xsub (a b : xr) : xr := xadd a (xneg b).

(* ---------------------------------------------------------------- Uniform *)
(* uniform.cc l.47-57; the reals are rand () / RAND_MAX *)
Fixpoint shoot_extra (b : bounds) (rs : list R) : res (list xr) :=
  match b, rs with
  | [], _ => Ok []
  | (lower, upper) :: b', r :: rs' =>
    let range := xsub upper lower in
    if xlt0 range || is_pinf range then Throw
    else do q <- shoot_extra b' rs' ; Ok (xadd lower (xmul (xsub upper lower) (Fin r)) :: q)
  | _ :: _, [] => Fuel
  end.
(* impl_shoot, uniform.cc l.38-61; random is the result of
   pinocchio::randomConfiguration (model).  The argument is the vector given
   by the caller. *)
Definition uniform_shoot (d : device) (sampleExtra : bool) (random : res (list xr)) (rs : list R) (config : list xr) : res (list xr) :=
  do head <- random ;
  if sampleExtra then do tail <- shoot_extra (extra d) rs ; Ok (head ++ tail)
  else Ok (head ++ repeat (Fin 0) (length (extra d))).

(* --------------------------------------------------------- UniformSeedable *)
(* std::uniform_real_distribution (a, b) requires a <= b and b - a finite *)
Definition distrib (b : xr * xr) (r : R) : res xr :=
  match b with
  | (Fin lo, Fin hi) => if rleb lo hi then Ok (Fin (lo + (hi - lo) * r)) else UB
  | _ => UB
  end.
Fixpoint draw_all {G} (next : G -> R * G) (b : bounds) (g : G) : res (list xr) * G :=
  match b with
  | [] => (Ok [], g)
  | x :: b' =>
    let (r, g1) := next g in
    let (q, g2) := draw_all next b' g1 in
    (match distrib x r with Ok v => do q' <- q ; Ok (v :: q') | Throw => Throw | UB => UB | Fuel => Fuel end, g2)
  end.
(* HPP's LiegroupSpace::isVectorSpace *)
Definition is_vector (g : group) : bool := match g with Vect _ => true | _ => false end.
(* impl_shoot, uniform-tpl.hxx l.16-38; also the state of the generator *)
Definition seedable_shoot {G} (next : G -> R * G) (d : device) (g : G) (config : list xr) : res (list xr) * G :=
  if negb (forallb (fun j => is_vector (fst j)) (joints d)) then (Throw, g)
  else draw_all next (flat_map snd (joints d) ++ extra d) g.

(* ---------------------------------------------------------------- Gaussian *)
Definition is_finite (x : xr) : bool := match x with Fin _ => true | _ => false end.
(* computeSigmasAlgo for vector spaces, gaussian.cc l.65-78 *)
Fixpoint vect_sigmas (b : bounds) : list R :=
  match b with
  | [] => []
  | (Fin lo, Fin hi) :: b' => (hi - lo) :: vect_sigmas b'
  | _ :: b' => 1 :: vect_sigmas b'
  end.
(* l.49-53 *)
Definition so_sigmas (n : nat) : list R := repeat (2 * PI / sqrt (INR n)) (nv (SOn n)).
(* l.55-63 and l.80-88 *)
Fixpoint group_sigmas (g : group) (b : bounds) : list R :=
  match g with
  | Vect n => vect_sigmas (firstn n b)
  | SOn n => so_sigmas n
  | SEn n => vect_sigmas (firstn n b) ++ so_sigmas n
  | Prod g1 g2 => group_sigmas g1 (firstn (nq g1) b) ++ group_sigmas g2 (skipn (nq g1) b)
  end.
(* sigma, l.122-129: the memory of sigmas_ before and after *)
Definition set_sigma (d : device) (factor : R) (before : list R) : list R :=
  map (fun s => s * factor) (flat_map (fun j => group_sigmas (fst j) (snd j)) (joints d) ++ skipn (jnv d) before).

Record gaussian := { g_center : list xr; g_sigmas : list R }.
(* constructor, gaussian.hh l.77-82; memory: what the vector sigmas_ holds
   when it is allocated *)
Definition gaussian_create (d : device) (current : list xr) (memory : list R) : gaussian :=
  {| g_center := current; g_sigmas := set_sigma d (/ 4) memory |}.
Definition set_center (g : gaussian) (c : list xr) : gaussian := {| g_center := c; g_sigmas := g_sigmas g |}.
Definition set_sigmas (g : gaussian) (s : list R) : gaussian := {| g_center := g_center g; g_sigmas := s |}.

(* boost::random::normal_distribution (0, sigma) requires sigma >= 0;
   zs : values of the standard normal law, l.106-110 *)
Fixpoint draw_velocity (sigmas zs : list R) : res (list R) :=
  match sigmas, zs with
  | [], _ => Ok []
  | s :: sigmas', z :: zs' =>
    if rltb s 0 then UB else do v <- draw_velocity sigmas' zs' ; Ok (s * z :: v)
  | _ :: _, [] => Fuel
  end.
Section Shoot.
(* pinocchio::integrate and saturate *)
Variable integrate : list xr -> list R -> list xr.
Variable saturate : list xr -> list xr.
Variable neutral : list xr.
(* impl_shoot, l.104-120: the local variable center (l.113-117) is computed and
   not used; integrate reads a segment of its first argument per joint, out of
   range if it is shorter than the configurations of the robot *)
Definition gaussian_shoot (d : device) (g : gaussian) (zs : list R) (config : list xr) : res (list xr) :=
  do velocity <- draw_velocity (g_sigmas g) zs ;
  let center := if Nat.eqb (length (g_center g)) 0 then neutral else g_center g in
  if Nat.ltb (length (g_center g)) (config_size d) then UB
  else Ok (saturate (integrate (g_center g) velocity)).
End Shoot.

(* ------------------------------------------------ problem-solver.cc factories *)
(* Values of the parameters; None: not set, the declared default is used,
   l.1063-1075 *)
Record params := {
  p_center : option (list xr); p_useVel : option bool; p_stdDev : option R; p_sampleExtra : option bool }.
(* createGaussianConfigShooter, l.129-144 *)
Definition make_gaussian (d : device) (p : params) (current : list xr) (velocity : list R) (memory : list R) : gaussian :=
  let g := gaussian_create d current memory in
  let g := set_center g (match p_center p with Some c => c | None => [] end) in
  if match p_useVel p with Some b => b | None => false end then set_sigmas g velocity
  else match p_stdDev p with
       | Some f => set_sigmas g (set_sigma d f (g_sigmas g))
       | None => g
       end.
(* createUniformConfigShooter, l.146-153: sampleExtraDOF_ *)
Definition make_uniform (p : params) : bool := match p_sampleExtra p with Some b => b | None => true end.
