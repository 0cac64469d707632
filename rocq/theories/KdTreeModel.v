(* nearestNeighbor::KDTree (src/nearest-neighbor/k-d-tree.cc). *)
From Coq Require Import Reals.
From Verif Require Import Base XReal.
Open Scope R_scope.

(* comparison of doubles, false as soon as one side is NaN *)
Definition xltb (x y : xr) : bool :=
  match x, y with
  | Fin a, Fin b => rltb a b
  | MInf, Fin _ | MInf, PInf | Fin _, PInf => true
  | _, _ => false
  end.
(* x == 0. *)
Definition xis0 (x : xr) : bool := match x with Fin a => reqb a 0 | _ => false end.
(* fabs *)
Definition xabs (x : xr) : xr :=
  match x with Fin a => Fin (Rabs a) | PInf | MInf => PInf | NaN => NaN end.
(* std::min (a, b) : b if b < a, a otherwise *)
Definition std_min (a b : xr) : xr := if xltb b a then b else a.
Definition xsub (x y : xr) : xr := xadd x (xneg y).

(* A node of the roadmap: identity and configuration.  Its connected component
   is a property of the roadmap: see [comp] below. *)
Record node := mkNode { nid : nat; ncfg : nat -> R }.

(* --------------------------------------------------------- nodesMap_ *)
(* k-d-tree.hh lines 100-101: std::map from connected components to lists of
   nodes, in increasing order of the keys (addresses, numbers here) *)
Definition nmap := list (nat * list node).
(* nodesMap_[c] followed by a modification of the list *)
Fixpoint mupd (m : nmap) (c : nat) (f : list node -> list node) : nmap :=
  match m with
  | [] => [(c, f [])]
  | (c', l) :: m' =>
      if (c =? c')%nat then (c', f l) :: m'
      else if (c <? c')%nat then (c, f []) :: m
      else (c', l) :: mupd m' c f
  end.
Definition mtouch (m : nmap) (c : nat) : nmap := mupd m c (fun l => l).
Fixpoint mfind (m : nmap) (c : nat) : option (list node) :=
  match m with
  | [] => None
  | (c', l) :: m' => if (c =? c')%nat then Some l else mfind m' c
  end.
Definition mget (m : nmap) (c : nat) : list node :=
  match mfind m c with Some l => l | None => [] end.
Definition merase (m : nmap) (c : nat) : nmap := filter (fun e => negb (fst e =? c)%nat) m.
Definition mnodes (m : nmap) : list node := concat (map snd m).

(* ---------------------------------------------------------------- tree *)
(* splitDim_, lowerBounds_, upperBounds_ *)
Record box := mkBox { sd : nat; lo : nat -> xr; hi : nat -> xr }.
(* bucket_ and nodesMap_ after the box; infChild_ then supChild_.  The children
   are always both null or both allocated. *)
Inductive tree :=
| Leaf (b : box) (bucket : nat) (m : nmap)
| Node (b : box) (bucket : nat) (m : nmap) (inf sup : tree).
Definition tbox (t : tree) : box := match t with Leaf b _ _ | Node b _ _ _ _ => b end.
Definition tmap (t : tree) : nmap := match t with Leaf _ _ m | Node _ _ m _ _ => m end.

Section Kd.
Variable dim : nat.                   (* robot_->configSize(), also dim_ *)
Variable bsize : nat.                 (* bucketSize_ *)
(* weights_, None for the coordinates the constructor leaves uninitialised *)
Variable w : nat -> option R.
(* the distance between two configurations (a WeighedDistance) *)
Variable dist : (nat -> R) -> (nat -> R) -> R.

Definition wread (k : nat) : res R := match w k with Some r => Ok r | None => UB end.

(* lines 155-176: bounds of the coordinate k of the nodes of a leaf *)
Definition act_lo (ns : list node) (k : nat) : xr :=
  fold_left (fun a n => if xltb (Fin (ncfg n k)) a then Fin (ncfg n k) else a) ns PInf.
Definition act_hi (ns : list node) (k : nat) : xr :=
  fold_left (fun a n => if xltb a (Fin (ncfg n k)) then Fin (ncfg n k) else a) ns MInf.
(* lines 177-185: the dimension to split, [None]: left uninitialised *)
Fixpoint split_dim (ns : list node) (ks : list nat) (st : xr * option nat) : res (option nat) :=
  match ks with
  | [] => Ok (snd st)
  | k :: ks' =>
      do wk <- wread k;
      let width := xsub (act_hi ns k) (act_lo ns k) in
      if xltb (fst st) (xmul width (Fin wk)) then split_dim ns ks' (width, Some k)
      else split_dim ns ks' st
  end.
(* lines 150-194 split of a leaf (the exception for inner nodes cannot happen);
   an uninitialised dimension indexes vectors: undefined behaviour *)
Definition split (b : box) (m : nmap) : res (tree * tree) :=
  let ns := mnodes m in
  do od <- split_dim ns (seq 0 dim) (Fin 0, None);
  match od with
  | None => UB
  | Some d =>
      let v := xmul (xadd (act_hi ns d) (act_lo ns d)) (Fin (/ 2)) in
      Ok (Leaf (mkBox d (lo b) (upd (hi b) d v)) 0 [],
          Leaf (mkBox d (upd (lo b) d v) (hi b)) 0 [])
  end.

(* lines 106-108, 308-309: is the value on the side of the second child *)
Definition goes_sup (s : tree) (x : nat -> R) : bool :=
  xltb (lo (tbox s) (sd (tbox s))) (Fin (x (sd (tbox s)))).

(* lines 101-123: findLeaf, which creates an entry for the component of the
   node all along the path, and addition to a leaf which is not full; [full]:
   what is done with a full leaf *)
Fixpoint insert (full : box -> nat -> nmap -> res tree) (comp : nat -> nat) (n : node) (t : tree) : res tree :=
  match t with
  | Leaf b k m =>
      let m1 := mtouch m (comp (nid n)) in
      if (k <? bsize)%nat then Ok (Leaf b (S k) (mupd m1 (comp (nid n)) (cons n)))
      else full b k m1
  | Node b k m i s =>
      let m1 := mtouch m (comp (nid n)) in
      if goes_sup s (ncfg n) then do s1 <- insert full comp n s; Ok (Node b k m1 i s1)
      else do i1 <- insert full comp n i; Ok (Node b k m1 i1 s)
  end.
Fixpoint add_list (add : node -> tree -> res tree) (ns : list node) (t : tree) : res tree :=
  match ns with
  | [] => Ok t
  | n :: ns' => do t1 <- add n t; add_list add ns' t1
  end.
(* lines 119-136 addNode; the fuel bounds the nesting of splits.  The nodes of
   the leaf are added to the split leaf with their current component. *)
Fixpoint add_node (fuel : nat) (comp : nat -> nat) (n : node) (t : tree) : res tree :=
  insert (fun b k m =>
    match fuel with
    | O => Fuel
    | S f =>
        do (i, s) <- split b m;
        do t1 <- add_list (add_node f comp) (mnodes m)
                   (Node b k (map (fun e => (fst e, [])) m) i s);
        add_node f comp n t1
    end) comp n t.

(* lines 138-148 clear: the children are deleted; bucket_ is kept *)
Definition clear (t : tree) : tree :=
  match t with Leaf b k _ | Node b k _ _ _ => Leaf b k [] end.

(* lines 340-348 merge.  std::list::merge compares addresses ([nid] here); it
   is meant for sorted lists, which these are not: the interleaving is the one
   of the usual implementation.  A list merged with itself is unchanged. *)
Fixpoint lmerge (a : list node) : list node -> list node :=
  match a with
  | [] => fun b => b
  | x :: a' =>
      (fix aux (b : list node) : list node :=
         match b with
         | [] => a
         | y :: b' => if (nid y <? nid x)%nat then y :: aux b' else x :: lmerge a' b
         end)
  end.
Definition merge_map (m : nmap) (c1 c2 : nat) : nmap :=
  let m1 := mtouch (mtouch m c2) c1 in
  merase (if (c1 =? c2)%nat then m1 else mupd m1 c1 (fun l => lmerge l (mget m1 c2))) c2.
Fixpoint merge (c1 c2 : nat) (t : tree) : tree :=
  match t with
  | Leaf b k m => Leaf b k (merge_map m c1 c2)
  | Node b k m i s => Node b k (merge_map m c1 c2) (merge c1 c2 i) (merge c1 c2 s)
  end.

(* lines 218-233 distanceToBox *)
Definition dist_to_box (b : box) (q : nat -> R) : res xr :=
  let d := sd b in
  do wd <- wread d;
  Ok (std_min (xmul (xabs (xsub (lo b d) (Fin (q d)))) (Fin wd))
              (xmul (xabs (xsub (hi b d) (Fin (q d)))) (Fin wd))).

(* lines 283-338 search; state: minDistance and nearest.  [reverse] is false
   in every call. *)
Definition closer (q : nat -> R) (st : xr * option node) (n : node) : xr * option node :=
  let d := dist (ncfg n) q in
  if xltb (Fin d) (fst st) then (Fin d, Some n) else st.
Definition xsq (x : xr) : xr := xmul x x.
Fixpoint srch (t : tree) (boxd : xr) (q : nat -> R) (c : nat) (st : xr * option node) : res (xr * option node) :=
  if xltb boxd (xsq (fst st)) && match mfind (tmap t) c with Some _ => true | None => false end then
    match t with
    | Leaf _ _ m => Ok (fold_left (closer q) (mget m c) st)
    | Node _ _ _ i s =>
        do (di, ds) <-
          (if xis0 boxd then
             if goes_sup s q then do di <- dist_to_box (tbox i) q; Ok (di, Fin 0)
             else do ds <- dist_to_box (tbox s) q; Ok (Fin 0, ds)
           else do di <- dist_to_box (tbox i) q; do ds <- dist_to_box (tbox s) q; Ok (di, ds));
        if xltb di ds then
          do st1 <- srch i boxd q c st;
          srch s (xadd (xsub boxd (xsq di)) (xsq ds)) q c st1
        else
          do st1 <- srch s boxd q c st;
          srch i (xadd (xsub boxd (xsq ds)) (xsq di)) q c st1
    end
  else Ok st.

(* lines 235-258 search: the nearest node (null if there is none; an assertion
   rejects that in debug mode) and its distance; an exception if the
   configuration is out of the bounds of the root *)
Definition outside (b : box) (q : nat -> R) : bool :=
  existsb (fun k => xltb (Fin (q k)) (lo b k) || xltb (hi b k) (Fin (q k))) (seq 0 dim).
Definition search (t : tree) (q : nat -> R) (c : nat) : res (xr * option node) :=
  if outside (tbox t) q then Throw else srch t (Fin 0) q c (PInf, None).

(* lines 62-97: the tree built by the constructor, [rlo] and [rhi] being the
   bounds of the robot (lines 197-216) *)
Definition root (rlo rhi : nat -> xr) : tree := Leaf (mkBox 0 rlo rhi) 0 [].

(* The calls made on the tree and what happens to the components of the nodes
   in the roadmap: a node is added, components are merged and the tree is told
   (KMerge) or not told (RMerge: src/roadmap.cc line 303 never calls
   nearestNeighbor_->merge), everything is erased. *)
Inductive op := Add (n : node) | KMerge (c1 c2 : nat) | RMerge (c1 c2 : nat) | Clear.
Definition relabel (c1 c2 : nat) (comp : nat -> nat) : nat -> nat :=
  fun i => if (comp i =? c2)%nat then c1 else comp i.
Fixpoint run (fuel : nat) (ops : list op) (st : tree * (nat -> nat)) : res (tree * (nat -> nat)) :=
  match ops with
  | [] => Ok st
  | o :: ops' =>
      let (t, comp) := st in
      match o with
      | Add n => do t1 <- add_node fuel comp n t; run fuel ops' (t1, comp)
      | KMerge c1 c2 => run fuel ops' (merge c1 c2 t, relabel c1 c2 comp)
      | RMerge c1 c2 => run fuel ops' (t, relabel c1 c2 comp)
      | Clear => run fuel ops' (clear t, comp)
      end
  end.
End Kd.

(* lines 82-91: weights_ from the weights of the joints, [ws] giving one entry
   (weight, number of coordinates) per joint; the coordinates of the extra
   configuration space come after and are not written *)
Fixpoint kd_weights (ws : list (R * nat)) (k : nat) : option R :=
  match ws with
  | [] => None
  | (wt, s) :: ws' => if (k <? s)%nat then Some wt else kd_weights ws' (k - s)
  end.
