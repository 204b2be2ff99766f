(** Activation functions: the chain of scalar operations every node expands to,
    and the place of an expansion in its sequence. *)
From Verif Require Export TensorMulti.
Open Scope string_scope.
Open Scope Z_scope.
Import ListNotations.

(** Op-codes of the scalar operations used (an arbitrary numbering). *)
Record fpops := { c_neg : nat; c_exp : nat; c_add : nat; c_sub : nat; c_mul : nat; c_div : nat; c_fma : nat; c_max : nat; c_min : nat;
  zero : Z; one : Z }.
(** elementwise_ops/relu_node.cpp:37-50 *)
Definition relu_links (o : fpops) : list link := [(c_max o, [CArg (AConst (zero o)); Cur])].
(** elementwise_ops/sigmoid_node.cpp:34-76 *)
Definition sigmoid_links (o : fpops) : list link :=
  [(c_neg o, [Cur]); (c_exp o, [Cur]); (c_add o, [CArg (AConst (one o)); Cur]); (c_div o, [CArg (AConst (one o)); Cur])].
(** elementwise_ops/elu_node.cpp:36-93.  The alpha input can never be
    connected when the expansion happens: it would make the in-degree 2 and
    ElementWiseUnaryNode::expand returns false (elementwise_node.cpp:89-91),
    so the factor is always the constant 1.0 (:88-89). *)
Definition elu_links (o : fpops) : list link :=
  [(c_exp o, [Cur]); (c_sub o, [Cur; CArg (AConst (one o))]); (c_mul o, [Cur; CArg (AConst (one o))])].
(** elementwise_ops/leaky_relu_node.cpp:36-60: "_in1" of the multiplication
    is never connected (:55-57). *)
Definition leaky_relu_links (o : fpops) : list link :=
  [(c_max o, [Cur; CArg (AConst (zero o))]); (c_mul o, [Cur])].
(** elementwise_ops/hard_sigmoid_node.cpp:37-73: "_in2" and "_in3" of the fma
    are never connected (:47-50). *)
Definition hard_sigmoid_links (o : fpops) : list link :=
  [(c_fma o, [Cur]); (c_min o, [Cur; CArg (AConst (one o))]); (c_max o, [Cur; CArg (AConst (zero o))])].

(** What replaces the block that holds the node (with the other computations
    [others] of the same block and its assignments [tr]).
    elementwise_node.cpp:108-109, 157-163: a new sequence with the block's
    assignments before the block, then the block is removed, whatever else it
    holds; the same in transpose_node.cpp, reduce_node.cpp, fill_node.cpp,
    tasklet_node.cpp, cmath_node.cpp. *)
Definition replace_elementwise (others : block) (code : nat) (args : list earg) (y : string) (shape : list expr)
    (vs : list string) (tr : assigns) : seq := SCons (expand_elementwise code args y shape vs) tr SNil.
(** broadcast_node.cpp:124-134, 186-187: the outer map is added with no
    assignments and the block is removed with its own. *)
Definition replace_broadcast (others : block) (scalar : bool) (x y : string) (in_shape shape : list expr) (vs : list string)
    (tr : assigns) : seq := expand_broadcast scalar x y in_shape shape vs.
