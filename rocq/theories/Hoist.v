(** Code motion before offloading: the pass that moves blocks out of maps and
    conditionals.

    Modelled: opt/src/passes/offloading/code_motion/block_hoisting.cpp:38-63 (accept),
    327-365 (is_invariant_view), 367-431 (is_invariant_libnode), 474-531 (equal_views,
    equal_libnodes), 533-649 (map_invariant_front, map_invariant_back and their parts),
    651-791 (if_else_invariant_front, if_else_invariant_back, if_else_extract_invariant_front,
    if_else_extract_invariant_back), on the programs of BlockSort.v.
    All calls in the code leave no_loop_carried_dependencies at its default, true
    (block_hoisting.h:26-38), so the tests after it never run.
    Simplified: of the blocks the pass moves, references, alloca and memset are modelled
    (not Dereference memlets, memcpy, memmove and data offloading nodes); a conditional
    has two branches, the second one the complement; [maps] names the indices of the
    maps, all of them sequential. *)
From Verif Require Import Sym SymFacts Alloc BlockSort.

(** is_invariant_view *)
Definition inv_view (i : option string) (a : ins) : bool :=
  match a with View _ _ e => match i with Some i => negb (Sym.uses e i) | None => true end | _ => false end.
(** is_invariant_libnode with is_libnode_allowed: the symbols of the node do not contain
    the index *)
Definition inv_lib (i : option string) (a : ins) : bool :=
  match a with
  | New _ Stack n => match i with Some i => negb (Sym.uses n i) | None => true end
  | Fill _ v n => match i with Some i => negb (Sym.uses v i) && negb (Sym.uses n i) | None => true end
  | _ => false
  end.
(** equal_views, equal_libnodes: same containers, same subset, same size or value *)
Definition equal_ins (a b : ins) : bool :=
  match a, b with
  | View y x e, View y' x' e' => String.eqb y y' && String.eqb x x' && expr_eqb e e'
  | New x Stack n, New x' Stack n' => String.eqb x x' && expr_eqb n n'
  | Fill x v n, Fill x' v' n' => String.eqb x x' && expr_eqb v v' && expr_eqb n n'
  | _, _ => false
  end.
Definition blk1 (a : ins) : child := (NBlk [a], []).
(** if_else_invariant_front: the first blocks of both branches *)
Definition if_front (n : node) : option (ins * node) :=
  match n with
  | NIf c ((NBlk [a], []) :: p) ((NBlk [b], []) :: q) =>
      if (inv_view None a || inv_lib None a) && equal_ins a b then Some (a, NIf c p q) else None
  | _ => None
  end.
(** if_else_invariant_back: the last blocks of both branches, library nodes only *)
Definition if_back (n : node) : option (ins * node) :=
  match n with
  | NIf c p q =>
      match rev p, rev q with
      | (NBlk [a], []) :: p', (NBlk [b], []) :: q' => if inv_lib None a && equal_ins a b then Some (a, NIf c (rev p') (rev q')) else None
      | _, _ => None
      end
  | _ => None
  end.
(** map_invariant_front *)
Definition map_front (maps : list string) (n : node) : option (ins * node) :=
  match n with
  | NLoop [Put i e] c [Put i' u] ((NBlk [a], []) :: p) =>
      if String.eqb i i' && inb i maps && (inv_view (Some i) a || inv_lib (Some i) a) then Some (a, NLoop [Put i e] c [Put i' u] p) else None
  | _ => None
  end.
(** map_invariant_back *)
Definition map_back (maps : list string) (n : node) : option (ins * node) :=
  match n with
  | NLoop [Put i e] c [Put i' u] p =>
      match rev p with
      | (NBlk [a], []) :: p' => if String.eqb i i' && inb i maps && inv_lib (Some i) a then Some (a, NLoop [Put i e] c [Put i' u] (rev p')) else None
      | _ => None
      end
  | _ => None
  end.
(** accept (38-63): front, then back; the moved block becomes the child before the
    statement, or the one after it. *)
Definition front_of (f : option (ins * node)) (n : node) : list child * node := match f with Some (a, n') => ([blk1 a], n') | None => ([], n) end.
Definition hoist (maps : list string) (c : child) : list child :=
  let (n, tr) := c in
  let f := match n with NIf _ _ _ => if_front | _ => map_front maps end in
  let b := match n with NIf _ _ _ => if_back | _ => map_back maps end in
  let (pre, n1) := front_of (f n) n in
  let (post, n2) := front_of (b n1) n1 in
  pre ++ (n2, tr) :: post.
