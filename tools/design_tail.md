## Trusted base

* Coq 8.16.1's kernel (with its conversion and `vm_compute`).
* `Print Assumptions` on every theorem of `MANIFEST.json` prints "Closed under the
  global context": no axioms, neither our own nor of the standard library. The
  check is repeated by `tools/assumptions.sh`.
* That the Gallina definitions say what the C++ text says: they were written by
  reading the cited lines; nothing was extracted or run. The definitions that matter
  most for this are the semantics in `IR.v`, the evaluator in `Sym.v` and the
  SymEngine behaviour in `Sym.v`/`SymFuns.v` (canonical sums and products, numeric
  folding, expansion), because SymEngine itself is not part of `/repo`.
* That the specifications beside the theorems match the English properties.

Only the standard library is used. There are no axioms, section-less variables,
functors, module types, `Admitted` proofs or disabled kernel checks.

## What is not modelled

* Boost, SymEngine, ISL, nlohmann::json, MLIR and LLVM internals. ISL answers are an
  abstract oracle with its documented meaning (`DepOracle.v`), or replaced by the
  syntactic/monotonic part of the code.
* Floating point: values are abstract; tasklet codes have an arbitrary meaning, the
  arithmetic theorems for library nodes are stated for the meaning of the named
  operations and their order.
* Machine arithmetic of containers: containers hold integers of unbounded size,
  except where a property is about the width (trunc_i32, capture counters, type
  bounds).
* Pointers, references and dereferences, structures with members inside blocks,
  aliasing of containers, allocation and lifetime, volatile/external storage.
* Parallel schedules of maps except as arbitrary iteration orders (C21); OpenMP and
  GPU code generation, the offloading passes, instrumentation, the Python and MLIR
  front ends (only tensor views), the C++ front end, the daemon and its network
  protocol.
* Library nodes other than those listed under C40 to C46; stdlib and MPI-like calls.
* Fixpoint iteration of pipelines; theorems are about one application of a pass
  (whole program, as the visitor does it) and compose because each preserves the
  behaviour.
* Termination: program equivalence is about terminating executions (both directions
  where stated), so a pass that makes a program diverge is excluded only by the
  theorems stated in both directions.
* Memory exhaustion and exceptions other than those modelled as `Throw`/`None`.

## Testing the theorems against wrong programs

`tools/mutate.py` seeds a wrong definition into a scratch copy, rebuilds, replaces
every broken proof by `Admitted` and lists the theorems that then depend on an
admitted lemma. `seeded/LOG.jsonl` has one line per attempt.
