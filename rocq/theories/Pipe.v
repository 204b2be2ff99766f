(** Pipelines of passes: model of Pipeline::run (sdfg/src/passes/pipeline.cpp:21-57; the two
    overloads are the same loops).  A pass is what Pass::run (sdfg/src/passes/pass.cpp:6-27)
    does: it changes the program and reports whether it applied.  Analyses that are
    recomputed on demand are part of the pass. *)
From Coq Require Import String List ZArith Bool Lia Wf_nat.
From Verif Require Import Sym SymFacts SymFuns Json Types Serial Dbg.
Import ListNotations.
Local Open Scope list_scope.

Definition pass (S : Type) := S -> S * bool.
(** the inner loop, lines 46-49: [a] is whether the pass ever applied *)
Inductive until {S} (p : pass S) : S -> S -> bool -> Prop :=
| u_stop s s' : p s = (s', false) -> until p s s' false
| u_more s s1 s' a : p s = (s1, true) -> until p s1 s' a -> until p s s' true.
(** the loop over the passes, lines 44-50 *)
Inductive sweep {S} : list (pass S) -> S -> S -> bool -> Prop :=
| s_nil s : sweep [] s s false
| s_cons p ps s s1 s' a b : until p s s1 a -> sweep ps s1 s' b -> sweep (p :: ps) s s' (a || b).
(** the outer loop, lines 42-53: [b] is the result of the pipeline *)
Inductive pipe {S} (ps : list (pass S)) : S -> S -> bool -> Prop :=
| p_stop s s' : sweep ps s s' false -> pipe ps s s' false
| p_more s s1 s' b : sweep ps s s1 true -> pipe ps s1 s' b -> pipe ps s s' true.

(** DebugInfoPropagation as a pass, debug_info_propagation.cpp:49-52: it always reports true *)
Definition dbg_pass : pass program := fun p => (prop_program p, true).

(** A pass is honest if it reports every change. *)
Definition honest {S} (p : pass S) : Prop := forall s s', p s = (s', false) -> s' = s.
