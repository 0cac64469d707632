(* Selection of coordinates of a path: class SubchainPath,
   include/hpp/core/subchain-path.hh.
   The original path is a path of PathModel.v whose configurations are lists of
   coordinates; [s_osize] is its outputSize ().  The velocity blocks are only
   used for their total size: velView_ (line 153) is never filled. *)
From Verif Require Import Base QcTac PathModel.
Open Scope nat_scope.

Section Subchain.
Variable A : Type.                                  (* coordinates *)
Notation conf := (list A).
Variable interp : conf -> conf -> Qc -> conf.

Definition segment := (nat * nat)%type.             (* first row, number of rows *)
(* Eigen::BlockIndex::cardinal *)
Definition cardinal (l : list segment) : nat := fold_right (fun s n => snd s + n) 0 l.
(* Eigen::RowBlockIndices::rview: the blocks of rows, one after the other;
   a block out of the vector is undefined *)
Fixpoint rview (l : list segment) (q : conf) : res conf :=
  match l with
  | [] => Ok []
  | (s, n) :: r =>
      if s + n <=? length q then bind (rview r q) (fun v => Ok (firstn n (skipn s q) ++ v)) else UB
  end.

Record sub := mkSub {
  s_hdr : hdr conf;                (* members of Path *)
  s_size : nat; s_dsize : nat;     (* outputSize, outputDerivativeSize *)
  s_orig : path conf;              (* original_ *)
  s_osize : nat;                   (* original_->outputSize () *)
  s_view : list segment;           (* configView_ *)
  s_buf : nat                      (* size of q_ *) }.

(* lines 126-133 *)
Definition create (o : path conf) (osize : nat) (cs vs : list segment) : sub :=
  mkSub (mk_hdr (timeRange o) None) (cardinal cs) (cardinal vs) o osize cs osize.
(* lines 135-140 *)
Definition copy (p : sub) : sub := p.
(* lines 142-146, with path.cc 121-131: the constraints replace those of the
   path, and q_ is not copied *)
Definition copy_with (p : sub) (c : constr conf) : sub :=
  mkSub (mkH (tr (s_hdr p)) (pr (s_hdr p)) (Some c) (tp (s_hdr p)))
        (s_size p) (s_dsize p) (s_orig p) (s_osize p) (s_view p) 0.
(* path.hh 225-229 *)
Definition retime (p : sub) (f : Qc -> Qc) (I : itv) : sub :=
  mkSub (set_tp (s_hdr p) (Some f) I) (s_size p) (s_dsize p) (s_orig p) (s_osize p) (s_view p) (s_buf p).

Definition extract_dofs (l : list segment) (r : res (option conf)) : res (option conf) :=
  bind r (fun o => match o with
                   | Some q => bind (rview l q) (fun v => Ok (Some v))
                   | None => Ok None
                   end).
(* lines 83-87: impl_compute.  The original path writes its configuration in
   q_, which must have its size. *)
Definition compute_sub (p : sub) (s : Qc) : res (option conf) :=
  if s_buf p =? s_osize p then extract_dofs (s_view p) (eval _ interp (s_orig p) s) else UB.
(* path.hh 130-140 *)
Definition eval_sub (p : sub) (t : Qc) : res (option conf) :=
  let s := param_at (s_hdr p) t in apply_cs (s_hdr p) s (compute_sub p s).
(* lines 90-101 *)
Definition initial_sub (p : sub) : res (option conf) := extract_dofs (s_view p) (initial _ interp (s_orig p)).
Definition end_sub (p : sub) : res (option conf) := extract_dofs (s_view p) (end_ _ interp (s_orig p)).
End Subchain.
