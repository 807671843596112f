(** Grids from element data, element data from grids, and structured grids of the three coordinate planes:
    /repo/cython/bempp/core/grid/grid.pyx 248-303 (grid_from_element_data), 305-352 (structured_grid),
    /repo/lib/grid/grid_factory.cpp 71-115 (createStructuredGrid), 176-256 (createGridFromConnectivityArrays),
    /repo/lib/grid/concrete_grid_view_imp.hpp 45-114 (getRawElementDataImpl), /repo/cython/bempp/core/grid/grid_view.pyx 71-85,
    /repo/python/bempp/api/grid/grid.py 154-261. *)
From Coq Require Import List Arith ZArith Bool Reals.
Import ListNotations.
From Verif Require Import Base BoxModel GridModel GridGeomModel.
Set Implicit Arguments.
Unset Strict Implicit.

(** what a call returns: a value, an exception, or undefined behaviour (memory outside an array is read) *)
Inductive outcome (A : Type) := Returns (a : A) | Raises | Undefined.
Arguments Raises {A}. Arguments Undefined {A}.

(** a two-dimensional numpy array of the element type that is asked for.  Simplification: numpy.require's conversion to double
    and intc is the identity *)
Record array (A : Type) := { rows : nat; cols : nat; at_ : nat -> nat -> A }.
(** its memory in Fortran order (requirement 'F') *)
Definition memory A (a : array A) : list A := flat_map (fun j => map (fun i => at_ a i j) (seq 0 (rows a))) (seq 0 (cols a)).

(** grid_factory.cpp 249-252: column j of the Eigen::Map with three rows; None: outside the memory *)
Definition mapColumn A (mem : list A) (j : nat) : option (A * A * A) :=
  match nth_error mem (3 * j), nth_error mem (3 * j + 1), nth_error mem (3 * j + 2) with
  | Some a, Some b, Some c => Some (a, b, c) | _, _, _ => None
  end.

(** what is inserted in the Dune::GridFactory, and the domain indices (one for each element, in insertion order) *)
Record grid P := { g_vertices : list P; g_elements : list elt; g_domains : list nat }.

Section Create.
  Variable D : Type. (* coordinates *)
  (** 201-207: insertVertex for each column *)
  Fixpoint insertVertices (mem : list D) (js : list nat) : option (list (D * D * D)) :=
    match js with
    | [] => Some []
    | j :: r => match mapColumn mem j with
                | None => None
                | Some v => option_map (cons v) (insertVertices mem r)
                end
    end.
  Definition badCorner (nv : nat) (c : Z) : bool := (c <? 0)%Z || (Z.of_nat nv <=? c)%Z.
  (** 212-223 *)
  Fixpoint insertElements (nv : nat) (mem : list Z) (js : list nat) : outcome (list elt) :=
    match js with
    | [] => Returns []
    | j :: r => match mapColumn mem j with
                | None => Undefined
                | Some (a, b, c) =>
                  if badCorner nv a || badCorner nv b || badCorner nv c then Raises
                  else match insertElements nv mem r with
                       | Returns l => Returns ((Z.to_nat a, Z.to_nat b, Z.to_nat c) :: l)
                       | o => o
                       end
                end
    end.
  (** 184-196, 224-230 and ConcreteGrid's constructors: with no domain indices all are 0.  The number of rows that the checks at
      184 and 188 see is that of the Eigen::Map, 3 *)
  Definition createGridFromConnectivityArrays (vmem : list D) (nv : nat) (emem : list Z) (ne : nat) (domains : list nat) :
      outcome (grid (D * D * D)) :=
    if negb (length domains =? 0) && negb (length domains =? ne) then Raises
    else match insertVertices vmem (seq 0 nv) with
         | None => Undefined
         | Some vs => match insertElements nv emem (seq 0 ne) with
                      | Returns es => Returns {| g_vertices := vs; g_elements := es;
                                                 g_domains := if length domains =? 0 then repeat 0 ne else domains |}
                      | Raises => Raises | Undefined => Undefined
                      end
         end.
  (** grid.pyx 286-303.  Simplifications: both arrays have a column (&vert_ptr[0,0] is taken); domain indices are naturals *)
  Definition gridFromElementData (vertices : array D) (elements : array Z) (domains : list nat) : outcome (grid (D * D * D)) :=
    createGridFromConnectivityArrays (memory vertices) (cols vertices) (memory elements) (cols elements) domains.
End Create.

(** how Dune numbers a grid: the pairs (index, insertion index) of the vertices and of the elements in iteration order *)
Record numbering := { vertexOrder : list (nat * nat); elementOrder : list (nat * nat) }.

Section Raw.
  Variable P : Type.
  (** a loop over entities that stores the value of an entity at its index; the storage is uninitialised at first (None);
      the outer None: an index outside it *)
  Fixpoint storeLoop A (f : nat -> option A) (order : list (nat * nat)) (out : list (option A)) : option (list (option A)) :=
    match order with
    | [] => Some out
    | (idx, ins) :: r => match upd out idx (f ins) with None => None | Some o => storeLoop f r o end
    end.
  (** concrete_grid_view_imp.hpp 71-79 *)
  Definition rawVertices (g : grid P) (n : numbering) : option (list (option P)) :=
    storeLoop (nth_error (g_vertices g)) (vertexOrder n) (repeat None (length (vertexOrder n))).
  (** IndexSet::subIndex(element, i, codimVertex): the index of the vertex that was inserted as number [ins] *)
  Definition vertexIndex (n : numbering) (ins : nat) : option nat := option_map fst (find (fun p => snd p =? ins) (vertexOrder n)).
  Definition corners (g : grid P) (n : numbering) (ins : nat) : option elt :=
    match nth_error (g_elements g) ins with
    | None => None
    | Some (a, b, c) => match vertexIndex n a, vertexIndex n b, vertexIndex n c with
                        | Some x, Some y, Some z => Some (x, y, z) | _, _, _ => None
                        end
    end.
  (** 81-96 and the removal of the fourth row in grid_view.pyx 82 *)
  Definition rawElements (g : grid P) (n : numbering) : option (list (option elt)) :=
    storeLoop (corners g n) (elementOrder n) (repeat None (length (elementOrder n))).
  (** 100-112: entity.domain() is permuteInsertionDomainIndices' array at the element's index *)
  Definition rawDomains (g : grid P) (n : numbering) : option (list (option nat)) :=
    match permuteInsertionDomainIndices (g_domains g) (elementOrder n) with
    | None => None
    | Some d => storeLoop (fun k => nth_error d k) (map (fun p => (fst p, fst p)) (elementOrder n)) (repeat None (length (elementOrder n)))
    end.
End Raw.

(** ---- structured grids ---- *)
Definition allSome A (l : list (option A)) : option (list A) :=
  fold_right (fun o r => match o, r with Some a, Some l => Some (a :: l) | _, _ => None end) (Some []) l.

(** grid.pyx 342-349 and grid_factory.cpp 90-109: the arguments are lists of numbers *)
Definition structuredGridCore (ll ur : list R) (n : list Z) : outcome (grid point) :=
  match ll, ur, n with
  | [lx; ly], [ux; uy], [nx; ny] =>
    if (nx <? 1)%Z || (ny <? 1)%Z then Raises
    else let nx := Z.to_nat nx in let ny := Z.to_nat ny in
         Returns {| g_vertices := map (structuredPosition lx ly ux uy nx ny) (structuredVertices nx ny);
                    g_elements := simplexElements nx ny; g_domains := repeat 0 (length (simplexElements nx ny)) |}
  | _, _, _ => Raises
  end.

(** the argument [axis]: the three accepted strings, or another one *)
Inductive axis := XY | XZ | YZ | Other.
Definition columns P (l : list P) (rows : nat) A (d : A) (f : nat -> P -> A) : array A :=
  {| rows := rows; cols := length l; at_ := fun i j => match nth_error l j with Some p => f i p | None => d end |}.
Definition coordinate (i : nat) (p : point) : R := match i with 0 => px p | 1 => py p | _ => pz p end.
Definition cornerOf (i : nat) (e : elt) : Z := match e with (a, b, c) => Z.of_nat (match i with 0 => a | 1 => b | _ => c end) end.
(** grid.py 247-259: vertices[[i, j, k], :] + offset_vector *)
Definition rearranged (v : array R) (perm : list nat) (off : list R) : array R :=
  {| rows := length perm; cols := cols v; at_ := fun i j => (at_ v (nth i perm 0%nat) j + nth i off 0)%R |}.
(** grid.py 238-261, [n] numbers the first grid.  None of the inner steps is ever undefined for a grid with a numbering *)
Definition structuredGrid (n : numbering) (ll ur : list R) (sub : list Z) (ax : axis) (offset : R) : outcome (grid point) :=
  match structuredGridCore ll ur sub with
  | Returns g =>
    match option_map (@allSome _) (rawVertices g n), option_map (@allSome _) (rawElements g n) with
    | Some (Some vs), Some (Some es) =>
      let vertices := columns vs 3 0%R coordinate in let elements := columns es 3 0%Z cornerOf in
      match ax with
      | XY => gridFromElementData (rearranged vertices [0; 1; 2] [0%R; 0%R; offset]) elements []
      | XZ => gridFromElementData (rearranged vertices [0; 2; 1] [0%R; offset; 0%R]) elements []
      | YZ => gridFromElementData (rearranged vertices [2; 0; 1] [offset; 0%R; 0%R]) elements []
      | Other => Raises
      end
    | _, _ => Undefined
    end
  | Raises => Raises | Undefined => Undefined
  end.
