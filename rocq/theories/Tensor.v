(** Expansion of tensor and BLAS library nodes into loop nests.

    Models sdfg/src/data_flow/library_nodes/math/tensor/*.cpp and
    sdfg/src/data_flow/library_nodes/math/blas/*.cpp.

    Simplifications: a tensor element is a store cell (container, multi-index),
    so the linearisation by strides (tensor types, C28-C30) is not repeated here
    except for MatMul, whose expansion addresses flat buffers; the op-code of a
    tasklet or cmath node is interpreted by an arbitrary function; a new name
    is a parameter assumed fresh (find_new_name, C32). *)
From Verif Require Export IRFacts.
Open Scope string_scope.
Open Scope Z_scope.
Import ListNotations.

(** The indices of a tensor with dimensions [d0, d1, ...] in row-major order. *)
Definition zrange (d : Z) : list Z := map Z.of_nat (List.seq 0 (Z.to_nat d)).
Fixpoint box (dims : list Z) : list (list Z) :=
  match dims with
  | [] => [[]]
  | d :: r => flat_map (fun v => map (cons v) (box r)) (zrange d)
  end.

(** One loop [for (i = 0; i < n; i = i + 1)] per entry, the first outermost.
    elementwise_node.cpp:111-139 and the same code in the other expansions. *)
Fixpoint nest (l : list (kind * string * expr)) (b : seq) : seq :=
  match l with
  | [] => b
  | (k, i, n) :: r => SCons (NLoop k i (EInt 0) (CLt (ESym i) n) (sadd (ESym i) (EInt 1)) (nest r b)) [] SNil
  end.
Definition maps (vs : list string) (shape : list expr) : list (kind * string * expr) :=
  map (fun p => (KMap, fst p, snd p)) (combine vs shape).
Definition fors (vs : list string) (shape : list expr) : list (kind * string * expr) :=
  map (fun p => (KFor, fst p, snd p)) (combine vs shape).
Definition single (b : block) : seq := SCons (NBlock b) [] SNil.
Definition syms (vs : list string) : list expr := map ESym vs.

Definition lvar (e : kind * string * expr) : string := snd (fst e).
Definition lbound (e : kind * string * expr) : expr := snd e.

(* ------------------------------------------------------------------ *)
(** Elementwise nodes. *)

(** An operand of an elementwise node: a tensor indexed like the result, a
    scalar tensor (empty subset), or a constant
    (elementwise_ops/add_node.cpp:45-68 and the other binary nodes). *)
Inductive earg := ATensor (x : string) | AScalar (x : string) | AConst (z : Z).
Definition earg_in (vs : list string) (a : earg) : operand :=
  match a with ATensor x => ORead x (syms vs) | AScalar x => ORead x [] | AConst z => OConst z end.
(** elementwise_node.cpp:86-166 (unary), 241-339 (binary),
    elementwise_ops/tasklet_node.cpp:150-260, cmath_node.cpp:150-260 (n-ary):
    one map per dimension, innermost the tasklet on the elements. *)
Definition ew_body (code : nat) (args : list earg) (y : string) (vs : list string) : block :=
  [{| o_code := code; o_ins := map (earg_in vs) args; o_out := y; o_sub := syms vs |}].
Definition expand_elementwise (code : nat) (args : list earg) (y : string) (shape : list expr) (vs : list string) : node :=
  NSeq (nest (maps vs shape) (single (ew_body code args y vs))).

(** A chain of tasklets on one element: every tasklet after the first reads the
    output element again (elementwise_ops/sigmoid_node.cpp, elu_node.cpp,
    leaky_relu_node.cpp, hard_sigmoid_node.cpp).  [Cur] is the element computed
    so far (the input element for the first link). *)
Inductive carg := Cur | CArg (a : earg).
Definition link := (nat * list carg)%type.
Definition carg_in (cur : string) (vs : list string) (c : carg) : operand :=
  match c with Cur => ORead cur (syms vs) | CArg a => earg_in vs a end.
Fixpoint chain_body (cur y : string) (vs : list string) (l : list link) : block :=
  match l with
  | [] => []
  | (code, args) :: r =>
      {| o_code := code; o_ins := map (carg_in cur vs) args; o_out := y; o_sub := syms vs |} :: chain_body y y vs r
  end.
Definition expand_chain (l : list link) (x y : string) (shape : list expr) (vs : list string) : node :=
  NSeq (nest (maps vs shape) (single (chain_body x y vs l))).

(** transpose_node.cpp:98-186: out[i_perm(0), i_perm(1), ...] = in[i_0, i_1, ...] *)
Definition permute {A} (d : A) (perm : list nat) (l : list A) : list A := map (fun k => nth k l d) perm.
Definition default_perm (n : nat) : list nat := map (fun i => (n - 1 - i)%nat) (List.seq 0 n).
Definition expand_transpose (perm : list nat) (x y : string) (shape : list expr) (vs : list string) : node :=
  NSeq (nest (maps vs shape)
    (single [{| o_code := 0; o_ins := [ORead x (syms vs)]; o_out := y; o_sub := permute (EInt 0) perm (syms vs) |}])).

(** broadcast_node.cpp:97-188: the [i]-th index of the input is the [i]-th loop
    variable, or 0 where the input dimension is the constant 1; a scalar tensor
    has no index.  Returns a bare nest: it is inserted with add_map_before. *)
Fixpoint bcast_sub (in_shape : list expr) (vs : list string) : list expr :=
  match in_shape, vs with
  | e :: r, v :: vs' => (if expr_eqb e (EInt 1) then EInt 0 else ESym v) :: bcast_sub r vs'
  | _, _ => []
  end.
Definition expand_broadcast (scalar : bool) (x y : string) (in_shape out_shape : list expr) (vs : list string) : seq :=
  nest (maps vs out_shape)
    (single [{| o_code := 0; o_ins := [ORead x (if scalar then [] else bcast_sub in_shape vs)];
                o_out := y; o_sub := syms vs |}]).

(* ------------------------------------------------------------------ *)
(** Reductions: reduce_node.cpp:121-345. *)

(** negative axes count from the end; out of range = InvalidSDFGException
    (reduce_node.cpp:148-163). *)
Definition norm_axis (rank : nat) (a : Z) : option nat :=
  let a' := if a <? 0 then Z.of_nat rank + a else a in
  if (a' <? 0) || (Z.of_nat rank <=? a') then None else Some (Z.to_nat a').
Fixpoint norm_axes (rank : nat) (l : list Z) : option (list nat) :=
  match l with
  | [] => Some []
  | a :: r => match norm_axis rank a, norm_axes rank r with Some x, Some y => Some (x :: y) | _, _ => None end
  end.
(** is_axis for every dimension (reduce_node.cpp:166-175) *)
Definition flags (rank : nat) (axes : list nat) : list bool :=
  map (fun i => existsb (Nat.eqb i) axes) (List.seq 0 rank).
(** output shape and output index: reduced dimensions are 1 / 0 or omitted
    (reduce_node.cpp:176-183, 306-325) *)
Fixpoint keep {A} (one : A) (kd : bool) (fl : list bool) (l : list A) : list A :=
  match fl, l with
  | true :: fl', _ :: l' => if kd then one :: keep one kd fl' l' else keep one kd fl' l'
  | false :: fl', a :: l' => a :: keep one kd fl' l'
  | _, _ => []
  end.
Fixpoint pick {A} (b : bool) (fl : list bool) (l : list A) : list A :=
  match fl, l with
  | c :: fl', a :: l' => if Bool.eqb b c then a :: pick b fl' l' else pick b fl' l'
  | _, _ => []
  end.
(** [vs]: loop variables of the dimensions, in dimension order; [ws]: loop
    variables of the initialisation nest.  Outer maps over the kept
    dimensions, inner fors over the reduced ones. *)
Definition expand_reduce (code : nat) (ident : Z) (fl : list bool) (kd : bool) (x y : string)
    (shape : list expr) (vs ws : list string) : node :=
  NSeq
    (sapp
      (nest (maps ws (keep (EInt 1) kd fl shape))
        (single [{| o_code := 0; o_ins := [OConst ident]; o_out := y; o_sub := syms ws |}]))
      (nest (maps (pick false fl vs) (pick false fl shape) ++ fors (pick true fl vs) (pick true fl shape))
        (single [{| o_code := code; o_ins := [ORead x (syms vs); ORead y (keep (EInt 0) kd fl (syms vs))];
                    o_out := y; o_sub := keep (EInt 0) kd fl (syms vs) |}]))).
Definition expand_reduce_node (code : nat) (ident : Z) (axes : list Z) (kd : bool) (x y : string)
    (shape : list expr) (vs ws : list string) : option node :=
  match norm_axes (List.length shape) axes with
  | Some ax => Some (expand_reduce code ident (flags (List.length shape) ax) kd x y shape vs ws)
  | None => None
  end.
