# Formal model of daisytuner/docc: design

The model is in `rocq/theories/`, one logical library `Verif`. Every definition
that models code cites the file and the lines of `/repo` it models; what it
simplifies is said in the same comment. Statements live in `*Props*.v`, together
with the small specifications they use, refutations and examples that meet the
hypotheses. `MANIFEST.json` maps each property to its theorems.

## How programs are modelled

* **Symbolic layer** (`Sym*.v`, `Lin.v`, `Poly.v`, `Delin.v`): SymEngine expression
  trees as an inductive type `expr` (integers, infinities, symbols, n-ary sums and
  products, powers, max/min, docc's function symbols), conditions as `cond`. An
  evaluator `eval : env -> expr -> option Z` with `None` for undefined behaviour
  (division by zero). The functions of `sdfg/src/symbolic/` are Gallina functions
  over these trees. Integers are unbounded, as in SymEngine; where the generated C
  code wraps or truncates (`trunc_i32`, idiv), the wrap is written explicitly.
* **Structured control flow** (`IR.v`): sequences with transition assignments,
  blocks of operations, if/else chains, `while(1)`, for, map, break, continue,
  return. Big-step semantics `run`/`runs` (partial correctness, undefined behaviour
  has no run), and an executable fuelled interpreter `xseq`, proved to agree, for
  examples and refutations. The stores map a container and an index list to `Z`;
  the meaning `I` of the tasklet codes is a universally quantified parameter.
* **Passes and analyses**: functions on this IR that follow the C++ control flow,
  including the visiting order and the conditions the C++ code checks (also where
  these are wrong).
* **Dataflow graphs** (`DataFlow.v`, `BlockFusion*.v`): nodes with element ids,
  memlets with connectors and subsets, lowered to blocks of the IR in the order the
  code generator emits them.
* **Types, tensors, library nodes** (`Types.v`, `Tensor*.v`, `Blas.v`, `Conv.v`,
  `Matmul.v`): the type hierarchy and the expansion of library nodes to IR programs,
  compared with the mathematical operation.
* **Serialization, argument capture** (`Json.v`, `Serial.v`, `Base64.v`,
  `Capture.v`, `Names.v`): functions on JSON trees, byte lists and strings; the
  capture context is a state machine over arbitrary histories of calls.

## How claims are stated

A claim that holds of the code is a theorem quantified over all inputs, programs,
stores and executions. A claim that is false of the code is kept as a `Definition
Cnn_..._full : Prop` or spelled out, refuted by a theorem `Cnn_..._refuted` with a
concrete program, and proved under the missing condition as `Cnn_..._partial` (or a
name that states the restriction). Statements use only the IR semantics, the API
functions and small specifications written beside them. Each theorem has an `Example`
(`Cnn_hypotheses`, `Cnn_nonvacuous`, ...) that meets its hypotheses.

