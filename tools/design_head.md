# Formal model of bempp in Rocq (Coq 8.16.1): design

## Approach
* Pure, total, computable Gallina models of the C++ and Python functions, one file
  per component (`*Model.v`), an independent specification where the statement
  needs one (`*Spec.v` or the top of the property file), proofs (`*Proofs.v`) and
  property files (`*Props.v`) that contain only `Theorem ... exact lemma.` followed
  by `Print Assumptions`, with `Example`s showing the hypotheses are satisfiable.
* Scalars: C++ `float/double/complex` are modelled by an arbitrary commutative ring
  (with a conjugation where the code conjugates), passed through `Section`
  variables, i.e. every theorem is universally quantified over the ring.  Rounding is
  NOT modelled: "equal" means equal in exact arithmetic.
* Every floating-point *comparison* that steers control flow (sort order along the
  main direction, admissibility, ACA convergence, distance brackets) is an arbitrary
  oracle, so theorems hold for every outcome of rounding.
* Threads: a parallel loop whose body performs mutex-protected `+=` is modelled as an
  arbitrary interleaving of atomic updates; theorems quantify over all of them.
* Undefined behaviour and exceptions are distinct outcomes (`option`/result types).
* If the code violates the property, a `*_refuted` theorem gives the witness and a
  `*_partial` theorem states what does hold.

