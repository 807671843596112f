(** Model of the discrete blocked operators of /repo/python/bempp/api/assembly/blocked_operator.py:455-866.
    As in PyOpModel arrays are matrices; [oned] tells 1-d arrays from 2-d arrays with one column.
    dtypes are not modelled (663-669: real and imaginary parts). *)
From Coq Require Import List Arith Bool.
Import ListNotations.
From Verif Require Import Base ArrayModel AsmModel QuadModel MatAlg PyOpModel.
Set Implicit Arguments.

Section PyBlock.
  Variable K : star_ring.
  Notation matrix := (mat K).
  Variable pinv : matrix -> matrix.

  Record blocked := Blocked { bl_rows : list nat; bl_cols : list nat; bl_ops : list (list (dop K)) }.

  (** 601-616: check or set one dimension ([None] = -1) *)
  Definition setDim (l : list (option nat)) (i d : nat) : res (list (option nat)) :=
    match nth_error l i with
    | None => Throws
    | Some (Some e) => if d =? e then Ok l else Throws
    | Some None => match upd l i (Some d) with Some l' => Ok l' | None => Throws end
    end.
  (** the operators met by the loops 597-617, with their positions *)
  Definition present (ops : list (list (option (dop K)))) : list (nat * nat * dop K) :=
    flat_map (fun p => flat_map (fun q => match snd q with Some o => [(fst p, fst q, o)] | None => [] end)
                                (combine (seq 0 (length (snd p))) (snd p)))
             (combine (seq 0 (length ops)) ops).
  Fixpoint scan (l : list (nat * nat * dop K)) (rows cols : list (option nat)) : res (list (option nat) * list (option nat)) :=
    match l with
    | [] => Ok (rows, cols)
    | (i, j, o) :: r => bind (setDim rows i (fst (shape o))) (fun rows' =>
                        bind (setDim cols j (snd (shape o))) (fun cols' => scan r rows' cols'))
    end.
  (** 619, 645-648 *)
  Definition allSet (l : list (option nat)) : bool := forallb (fun d => match d with Some _ => true | None => false end) l.
  Definition dims (l : list (option nat)) : list nat := map (fun d => match d with Some n => n | None => 0 end) l.
  (** 580-640.  [ops.shape[1]] does not exist for ragged lists. *)
  Definition mkBlocked (ops : list (list (option (dop K)))) : res blocked :=
    match ops with
    | [] => Throws
    | r0 :: _ =>
      if negb (forallb (fun r => length r =? length r0) ops) then Throws else
      bind (scan (present ops) (repeat None (length ops)) (repeat None (length r0))) (fun rc =>
      if allSet (fst rc) && allSet (snd rc) then
        let rows := dims (fst rc) in let cols := dims (snd rc) in
        Ok (Blocked rows cols (map (fun p =>
             map (fun q => match snd q with Some o => o | None => Zero (fst p) (fst q) end) (combine cols (snd p))) (combine rows ops)))
      else Throws)
    end.

  (** x[start:start + n, :] *)
  Definition rowSlice (x : matrix) (start n : nat) : matrix :=
    Mat (Nat.min (start + n) (m_rows x) - Nat.min start (m_rows x)) (m_cols x) (fun i j => m_at x (start + i) j).
  (** a[:] += v *)
  Definition iadd (a v : matrix) : res matrix :=
    if ((m_rows v =? m_rows a) || (m_rows v =? 1)) && ((m_cols v =? m_cols a) || (m_cols v =? 1))
    then Ok (Mat (m_rows a) (m_cols a) (fun i j => add (m_at a i j) (m_at v (bidx (m_rows v) i) (bidx (m_cols v) j)))) else Throws.
  (** 659-672 *)
  Fixpoint rowApply (ops : list (dop K)) (cols : list nat) (start : nat) (x acc : matrix) : res matrix :=
    match ops, cols with
    | o :: ops', c :: cols' =>
      bind (dot pinv o (rowSlice x start c)) (fun y => bind (iadd acc y) (fun acc' => rowApply ops' cols' (start + c) x acc'))
    | _, _ => Ok acc
    end.
  (** the row slices of the result, one below the other *)
  Fixpoint stackAt (l : list matrix) (p q : nat) : K :=
    match l with
    | [] => zero
    | a :: r => if p <? m_rows a then m_at a p q else stackAt r (p - m_rows a) q
    end.
  (** 639, 650-677 for 2-d arrays *)
  Definition blkApply (b : blocked) (x : matrix) : res matrix :=
    bind (mapRes (fun ro => rowApply (snd ro) (bl_cols b) 0 x (zeroMat (fst ro) (m_cols x))) (combine (bl_rows b) (bl_ops b)))
         (fun l => Ok (Mat (list_sum (bl_rows b)) (m_cols x) (stackAt l))).

  Inductive bop :=
  | BLeaf (b : blocked)
  | BSum (a b : bop)              (* 718-761 *)
  | BProd (a b : bop)             (* 764-820 *)
  | BScaled (a : bop) (c : K).    (* 823-866 *)
  (** 679-683, 752-761, 811-820, 858-866 *)
  Fixpoint rowDims (o : bop) : list nat := match o with BLeaf b => bl_rows b | BSum a _ | BProd a _ | BScaled a _ => rowDims a end.
  Fixpoint colDims (o : bop) : list nat := match o with BLeaf b => bl_cols b | BProd _ b => colDims b | BSum a _ | BScaled a _ => colDims a end.
  Fixpoint ndimsCols (o : bop) : nat := match o with BLeaf b => length (bl_cols b) | BProd _ b => ndimsCols b | BSum a _ | BScaled a _ => ndimsCols a end.
  Fixpoint bshape (o : bop) : nat * nat :=
    match o with
    | BLeaf b => (list_sum (bl_rows b), list_sum (bl_cols b))
    | BSum a _ => bshape a
    | BProd a b => (fst (bshape a), snd (bshape b))
    | BScaled a _ => bshape a
    end.
  (** np.any(a != b): one-element arrays are broadcast, other lengths that differ compare as different *)
  Definition npDiffer (a b : list nat) : bool :=
    if length a =? length b then negb (forallb (fun p => fst p =? snd p) (combine a b))
    else if length a =? 1 then negb (forallb (fun n => n =? nth 0 a 0) b)
    else if length b =? 1 then negb (forallb (fun n => n =? nth 0 b 0) a)
    else true.
  (** 505-510, 722-731 *)
  Definition bAdd (a b : bop) : res bop :=
    if npDiffer (rowDims a) (rowDims b) || npDiffer (colDims a) (colDims b) then Throws else Ok (BSum a b).
  (** 512-522, 768-770 *)
  Definition bMul (a b : bop) : res bop := if npDiffer (colDims a) (rowDims b) then Throws else Ok (BProd a b).
  (** 521, 537-545, 554-561 *)
  Definition bScale (a : bop) (c : K) : bop := BScaled a c.
  Definition bNeg (a : bop) : bop := bScale a (opp one).
  Definition bSub (a b : bop) : res bop := bAdd a (bNeg b).
  (** 512-536, 650-677, 741-742, 783-784, 839-840: multiplication with an array; _matmat is _matvec *)
  Fixpoint bapply (oned : bool) (o : bop) (x : matrix) : res matrix :=
    match o with
    | BLeaf b => if oned then checkVec (bshape (BLeaf b)) x (blkApply b x) else blkApply b x
    | BSum a b => bind (bapply oned a x) (fun y => bind (bapply oned b x) (fun z => npAdd y z))
    | BProd a b => bind (bapply oned b x) (bapply oned a)
    | BScaled a c => bind (bapply oned a x) (fun y => Ok (mScale c y))
    end.
  (** LinearOperator.matvec *)
  Definition bmatvec (oned : bool) (o : bop) (x : matrix) : res matrix := checkVec (bshape o) x (bapply oned o x).
  (** discrete_boundary_operator.py:607-632 *)
  Definition bAsMatrix (o : bop) : res matrix := bapply false o (mId K (snd (bshape o))).

  (** 641-643, 744-746, 786-801, 842-844 *)
  Fixpoint bget (o : bop) (i j : nat) : res (dop K) :=
    match o with
    | BLeaf b => match nth_error (bl_ops b) i with
                 | Some r => match nth_error r j with Some d => Ok d | None => Throws end
                 | None => Throws
                 end
    | BSum a b => bind (bget a i j) (fun x => bind (bget b i j) (fun y => pyAdd x y))
    | BProd a b =>
        match nth_error (rowDims a) i, nth_error (colDims b) j with
        | Some r, Some c =>
          fold_left (fun acc k => bind acc (fun s => bind (bget a i k) (fun x => bind (bget b k j) (fun y => bind (pyMul x y) (fun xy => pyAdd s xy)))))
                    (seq 0 (ndimsCols a)) (Ok (Zero r c))
        | _, _ => Throws
        end
    | BScaled a c => bind (bget a i j) (fun x => Ok (pyScale x c))
    end.
End PyBlock.
Arguments BLeaf {K}. Arguments BSum {K}. Arguments BProd {K}. Arguments BScaled {K}. Arguments Blocked {K}.
