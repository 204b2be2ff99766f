(** Linearisation of the subsets of memlets to arrays behind pointers.

    Modelled: sdfg/src/passes/dataflow/memlet_linearization.cpp:16-81
    (MemletLinearization::accept). Simplified: the pointer's storage, alignment and
    initializer, which are carried over, are left out. *)
From Verif Require Import Sym SymFacts SymFuns SymProofs1.

(** the part of types::IType the pass looks at *)
Inductive ty := TScalar | TArray (n : expr) (t : ty) | TOther.
(** 36-48: the number of elements of each dimension of the pointee, after a leading 1,
    and the innermost type *)
Fixpoint array_dims (t : ty) : list expr := match t with TArray n t => n :: array_dims t | _ => [] end.
Fixpoint innermost (t : ty) : ty := match t with TArray _ t => innermost t | t => t end.
(** 62-67: the product of the dimensions after the current one *)
Fixpoint stride (acc : expr) (ds : list expr) : expr := match ds with [] => acc | d :: r => stride (smul acc d) r end.
(** 57-70: [dims] are the dimensions after the one of the next index *)
Fixpoint linear_index (acc : expr) (dims : list expr) (l : list expr) : expr :=
  match l with
  | [] => acc
  | i :: r => linear_index (sadd acc (smul i (stride (EInt 1) dims))) (tl dims) r
  end.
(** accept, for one memlet to a pointer with pointee [t]: the new pointee and subset. *)
Definition linearize (t : ty) (l : list expr) : option (ty * list expr) :=
  match l, innermost t, array_dims t with
  | _ :: _, TScalar, _ :: _ => Some (TScalar, [linear_index (EInt 0) (array_dims t) l])
  | _, _, _ => None
  end.
