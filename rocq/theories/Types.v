(** The type system: primitive types, sizes, type inference, tensor views.
    sdfg/include/sdfg/types/type.h, sdfg/src/types/*.cpp,
    sdfg/src/passes/dataflow/tensor_to_pointer_conversion.cpp,
    mlir/lib/Target/SDFG/SDFGTranslator.cpp (TensorInfo). *)
From Coq Require Import Lia.
From Verif Require Import Sym SymFuns.
Local Open Scope string_scope.
Local Open Scope Z_scope.

(** PrimitiveType, type.h:35-55. *)
Inductive prim :=
| Void | Bool | Int8 | Int16 | Int32 | Int64 | Int128
| UInt8 | UInt16 | UInt32 | UInt64 | UInt128
| Half | BFloat | Float | Double | X86_FP80 | FP128 | PPC_FP128.

(** primitive_type_to_string, type.h:233-275. *)
Definition prim_to_string (p : prim) : string :=
  match p with
  | Void => "Void" | Bool => "Bool" | Int8 => "Int8" | Int16 => "Int16" | Int32 => "Int32" | Int64 => "Int64"
  | Int128 => "Int128" | UInt8 => "UInt8" | UInt16 => "UInt16" | UInt32 => "UInt32" | UInt64 => "UInt64"
  | UInt128 => "UInt128" | Half => "Half" | BFloat => "BFloat" | Float => "Float" | Double => "Double"
  | X86_FP80 => "X86_FP80" | FP128 => "FP128" | PPC_FP128 => "PPC_FP128"
  end.
(** primitive_type_from_string, type.h:283-324; [None] is the exception. *)
Definition prim_from_string (e : string) : option prim :=
  if String.eqb e "Void" then Some Void else if String.eqb e "Bool" then Some Bool
  else if String.eqb e "Int8" then Some Int8 else if String.eqb e "Int16" then Some Int16
  else if String.eqb e "Int32" then Some Int32 else if String.eqb e "Int64" then Some Int64
  else if String.eqb e "Int128" then Some Int128 else if String.eqb e "UInt8" then Some UInt8
  else if String.eqb e "UInt16" then Some UInt16 else if String.eqb e "UInt32" then Some UInt32
  else if String.eqb e "UInt64" then Some UInt64 else if String.eqb e "UInt128" then Some UInt128
  else if String.eqb e "Half" then Some Half else if String.eqb e "BFloat" then Some BFloat
  else if String.eqb e "Float" then Some Float else if String.eqb e "Double" then Some Double
  else if String.eqb e "X86_FP80" then Some X86_FP80 else if String.eqb e "FP128" then Some FP128
  else if String.eqb e "PPC_FP128" then Some PPC_FP128 else None.

(** bit_width, type.h:332-374. *)
Definition bit_width (p : prim) : Z :=
  match p with
  | Void => 0 | Bool => 1 | Int8 => 8 | Int16 => 16 | Int32 => 32 | Int64 => 64 | Int128 => 128
  | UInt8 => 8 | UInt16 => 16 | UInt32 => 32 | UInt64 => 64 | UInt128 => 128
  | Half => 16 | BFloat => 16 | Float => 32 | Double => 64 | X86_FP80 => 80 | FP128 => 128 | PPC_FP128 => 128
  end.
(** type.h:381-454 *)
Definition is_floating_point (p : prim) : bool :=
  match p with Half | BFloat | Float | Double | X86_FP80 | FP128 | PPC_FP128 => true | _ => false end.
Definition is_integer (p : prim) : bool :=
  match p with Bool | Int8 | Int16 | Int32 | Int64 | Int128 | UInt8 | UInt16 | UInt32 | UInt64 | UInt128 => true | _ => false end.
Definition is_signed (p : prim) : bool :=
  match p with Int8 | Int16 | Int32 | Int64 | Int128 => true | _ => false end.
Definition is_unsigned (p : prim) : bool :=
  match p with UInt8 | UInt16 | UInt32 | UInt64 | UInt128 => true | _ => false end.
(** as_signed / as_unsigned, type.h:461-498. *)
Definition as_signed (p : prim) : prim :=
  match p with UInt8 => Int8 | UInt16 => Int16 | UInt32 => Int32 | UInt64 => Int64 | UInt128 => Int128 | p => p end.
Definition as_unsigned (p : prim) : prim :=
  match p with Int8 => UInt8 | Int16 => UInt16 | Int32 => UInt32 | Int64 => UInt64 | Int128 => UInt128 | p => p end.

Definition prim_eqb (a b : prim) : bool :=
  match a, b with
  | Void, Void | Bool, Bool | Int8, Int8 | Int16, Int16 | Int32, Int32 | Int64, Int64 | Int128, Int128
  | UInt8, UInt8 | UInt16, UInt16 | UInt32, UInt32 | UInt64, UInt64 | UInt128, UInt128
  | Half, Half | BFloat, BFloat | Float, Float | Double, Double | X86_FP80, X86_FP80 | FP128, FP128 | PPC_FP128, PPC_FP128 => true
  | _, _ => false
  end.

(** Attributes of every type: storage type, alignment, initializer
    (type.h:518-553).  StorageType (type.h:63-127): the two optional expressions
    and the two flags. *)
Record storage := { s_value : string; s_size : option expr; s_arg1 : option expr; s_alloc : bool; s_dealloc : bool }.
Record attrs := { a_storage : storage; a_align : N; a_init : string }.

(** IType and its implementations (types/*.h; codegen::Reference is a wrapper of
    the code generators and is included).  A tensor's element type is a
    Scalar; its own attributes are not modelled (the tensor's are used). *)
Inductive ty :=
| TScalar (a : attrs) (p : prim)
| TArray (a : attrs) (elem : ty) (num : expr)
| TStruct (a : attrs) (name : string)
| TPointer (a : attrs) (pointee : option ty)
| TReference (a : attrs) (r : ty)
| TFunction (a : attrs) (ret : ty) (var_arg : bool) (params : list ty)
| TTensor (a : attrs) (elem : prim) (shape strides : list expr) (offset : expr).

(** primitive_type(): scalar.cpp:11, array.cpp:19, structure.cpp:13,
    pointer.cpp:31-37, function.cpp:15, tensor.cpp:46. *)
Fixpoint primitive_type (t : ty) : prim :=
  match t with
  | TScalar _ p => p
  | TArray _ e _ => primitive_type e
  | TStruct _ _ => Void
  | TPointer _ (Some t) => primitive_type t
  | TPointer _ None => Void
  | TReference _ t => primitive_type t
  | TFunction _ _ _ _ => Void
  | TTensor _ p _ _ _ => p
  end.
(** is_symbol(): scalar.cpp:13, pointer.cpp:39; false elsewhere. *)
Definition is_symbol (t : ty) : bool :=
  match t with TScalar _ p => is_integer p | TPointer _ _ => true | _ => false end.

(** operator==: scalar.cpp:17-23, array.cpp:28-35, structure.cpp:21-27,
    pointer.cpp:43-58, function.cpp:30-60, tensor.cpp:70-102.  The attributes
    are not compared, except a reference's alignment (codegen/utils.cpp:68-74). *)
Fixpoint list_eqb {A} (f : A -> A -> bool) (l m : list A) : bool :=
  match l, m with [], [] => true | a :: l, b :: m => f a b && list_eqb f l m | _, _ => false end.
Fixpoint ty_eqb (t u : ty) {struct t} : bool :=
  match t, u with
  | TScalar _ p, TScalar _ q => prim_eqb p q
  | TArray _ e n, TArray _ e' n' => expr_eqb n n' && ty_eqb e e'
  | TStruct _ n, TStruct _ n' => String.eqb n n'
  | TPointer _ None, TPointer _ None => true
  | TPointer _ (Some t), TPointer _ (Some u) => ty_eqb t u
  | TReference a t, TReference b u => ty_eqb t u && N.eqb (a_align a) (a_align b)
  | TFunction _ r v ps, TFunction _ r' v' ps' =>
      Bool.eqb v v' && ty_eqb r r' &&
      (fix go (l m : list ty) : bool :=
         match l, m with [], [] => true | a :: l, b :: m => ty_eqb a b && go l m | _, _ => false end) ps ps'
  | TTensor _ p sh st o, TTensor _ p' sh' st' o' =>
      prim_eqb p p' && expr_eqb o o' && list_eqb expr_eqb sh sh' && list_eqb expr_eqb st st'
  | _, _ => false
  end.

(** get_type_size, types/utils.cpp:146-195 ([None] is the null expression).
    [szof] is symbolic::size_of_type: a sizeof expression left to the compiler. *)
Definition prim_size (p : prim) : option expr :=
  let z := (bit_width p + 7) / 8 in if z =? 0 then None else Some (EInt z).
Definition prod_exprs (l : list expr) : expr := fold_left smul l (EInt 1).
Fixpoint type_size (szof : ty -> expr) (comp : bool) (t : ty) : option expr :=
  match t with
  | TPointer _ _ | TReference _ _ | TFunction _ _ _ _ => Some (EInt 8)
  | TStruct _ _ => if comp then Some (szof t) else None
  | TArray _ e n => match type_size szof comp e with Some z => Some (smul z n) | None => None end
  | TTensor _ p sh _ _ => match prim_size p with Some z => Some (smul z (prod_exprs sh)) | None => None end
  | TScalar _ p => prim_size p
  end.

(** infer_type_internal / infer_type, types/utils.cpp:16-88; [None] is an
    exception.  [defs] are the structure definitions (member types). *)
Definition structs := string -> option (list ty).
(** StructureDefinition::is_vector, structure.cpp:57-73. *)
Definition is_vector (ms : list ty) : bool :=
  match ms with
  | TScalar a p :: r => forallb (fun t => ty_eqb t (TScalar a p)) r
  | _ => false
  end.
Fixpoint infer_in (fuel : nat) (defs : structs) (t : ty) (sub : list expr) : option ty :=
  match sub with
  | [] => Some t
  | i :: sub' =>
    match fuel with
    | O => None
    | S fuel =>
      match t with
      | TScalar _ _ => None
      | TArray _ e _ => infer_in fuel defs e sub'
      | TStruct _ n =>
          match defs n with
          | None => None
          | Some ms =>
              if is_vector ms
              then match ms with m :: _ => infer_in fuel defs m sub' | [] => None end
              else match i with
                   | EInt z => if z <? 0 then None else match nth_error ms (Z.to_nat z) with Some m => infer_in fuel defs m sub' | None => None end
                   | _ => None
                   end
          end
      | TTensor a p sh st o =>
          match sh with
          | [_] => infer_in fuel defs (TScalar a p) sub'
          | _ => infer_in fuel defs (TTensor a p (tl sh) (tl st) o) sub'
          end
      | TPointer _ _ | TReference _ _ | TFunction _ _ _ _ => None
      end
    end
  end.
(** every step consumes one subscript *)
Definition infer_type_internal (defs : structs) (t : ty) (sub : list expr) : option ty := infer_in (length sub) defs t sub.
Definition infer_type (defs : structs) (t : ty) (sub : list expr) : option ty :=
  match sub with
  | [] => Some t
  | _ :: sub' =>
      match t with
      | TPointer _ (Some p) => infer_type_internal defs p sub'
      | TPointer _ None => None
      | _ => infer_type_internal defs t sub
      end
  end.

(* ---------------------------------------------------------------- *)
(** Tensor, types/tensor.cpp. *)
Record tensor := { t_elem : prim; t_shape : list expr; t_strides : list expr; t_offset : expr }.

(** strides_from_shape, tensor.cpp:8-18. *)
Fixpoint strides_from_shape (sh : list expr) : list expr :=
  match sh with
  | [] => []
  | _ :: r => let st := strides_from_shape r in
              match st with [] => [EInt 1] | s' :: _ => smul s' (hd (EInt 1) r) :: st end
  end.
(** Tensor(element_type, shape), tensor.cpp:20-22. *)
Definition mk_tensor (p : prim) (sh : list expr) : tensor :=
  {| t_elem := p; t_shape := sh; t_strides := strides_from_shape sh; t_offset := EInt 0 |}.
(** total_elements, tensor.cpp:58-64. *)
Definition total_elements (t : tensor) : expr := prod_exprs (t_shape t).

(** std::vector insert / erase at a position *)
Definition insert_at {A} (n : nat) (x : A) (l : list A) : list A := firstn n l ++ x :: skipn n l.
Definition erase_at {A} (n : nat) (l : list A) : list A := firstn n l ++ skipn (S n) l.
Definition set_at {A} (n : nat) (x : A) (l : list A) : list A := firstn n l ++ x :: skipn (S n) l.

(** newaxis / unsqueeze, tensor.cpp:140-160,189 ([None]: exception). *)
Definition newaxis (ax : nat) (t : tensor) : option tensor :=
  if (length (t_shape t) <? ax)%nat then None
  else Some {| t_elem := t_elem t; t_shape := insert_at ax (EInt 1) (t_shape t);
               t_strides := insert_at ax (EInt 0) (t_strides t); t_offset := t_offset t |}.
(** flip, tensor.cpp:162-187. *)
Definition flip (ax : nat) (t : tensor) : option tensor :=
  if (ax <? length (t_shape t))%nat then
    let st := nth ax (t_strides t) (EInt 0) in
    Some {| t_elem := t_elem t; t_shape := t_shape t;
            t_strides := set_at ax (smul (EInt (-1)) st) (t_strides t);
            t_offset := sadd (t_offset t) (smul st (ssub (nth ax (t_shape t) (EInt 0)) (EInt 1))) |}
  else None.
(** squeeze(axis), tensor.cpp:191-219. *)
Definition squeeze_axis (ax : nat) (t : tensor) : option tensor :=
  match nth_error (t_shape t) ax with
  | Some (EInt 1) => Some {| t_elem := t_elem t; t_shape := erase_at ax (t_shape t);
                             t_strides := erase_at ax (t_strides t); t_offset := t_offset t |}
  | _ => None
  end.
(** squeeze(), tensor.cpp:221-247. *)
Definition is_one_dim (e : expr) : bool := match e with EInt 1 => true | _ => false end.
Fixpoint squeeze_lists (sh st : list expr) : list expr * list expr :=
  match sh, st with
  | d :: sh', s :: st' =>
      let '(a, b) := squeeze_lists sh' st' in if is_one_dim d then (a, b) else (d :: a, s :: b)
  | _, _ => ([], [])
  end.
Definition squeeze (t : tensor) : tensor :=
  let '(sh, st) := squeeze_lists (t_shape t) (t_strides t) in
  {| t_elem := t_elem t; t_shape := sh; t_strides := st; t_offset := t_offset t |}.
(** reshape, tensor.cpp:249-277. *)
Definition reshape (new_shape : list expr) (t : tensor) : option tensor :=
  if expr_eqb (total_elements t) (prod_exprs new_shape)
  then Some {| t_elem := t_elem t; t_shape := new_shape; t_strides := strides_from_shape new_shape; t_offset := t_offset t |}
  else None.

(** The flat subscript that a tensor access is lowered to,
    tensor_to_pointer_conversion.cpp:66-71 ([None]: .at throws). *)
Fixpoint lin_fold (acc : expr) (sh sub st : list expr) : option expr :=
  match sh with
  | [] => Some acc
  | _ :: sh' => match sub, st with
                | i :: sub', s :: st' => lin_fold (sadd acc (smul i s)) sh' sub' st'
                | _, _ => None
                end
  end.
Definition linearize (t : tensor) (sub : list expr) : option expr := lin_fold (t_offset t) (t_shape t) sub (t_strides t).

(* ---------------------------------------------------------------- *)
(** TensorInfo, mlir/lib/Target/SDFG/SDFGTranslator.cpp:37-124; int64 is
    modelled by unbounded integers. *)
Record tinfo := { i_shape : list Z; i_strides : list Z; i_offset : Z }.
(** compute_strides, lines 48-59: right to left with a running product. *)
Fixpoint compute_strides_acc (sh : list Z) : list Z * Z :=
  match sh with
  | [] => ([], 1)
  | d :: r => let '(st, p) := compute_strides_acc r in (p :: st, p * d)
  end.
Definition compute_strides (sh : list Z) : list Z := fst (compute_strides_acc sh).
(** transpose, lines 67-77. *)
Definition ti_transpose (perm : list nat) (t : tinfo) : tinfo :=
  {| i_shape := map (fun p => nth p (i_shape t) 0) perm; i_strides := map (fun p => nth p (i_strides t) 0) perm; i_offset := i_offset t |}.
(** flip, lines 79-86 (shape and strides are those of the original). *)
Fixpoint ti_flip_go (orig : tinfo) (axes : list nat) (t : tinfo) : tinfo :=
  match axes with
  | [] => t
  | a :: r => ti_flip_go orig r
      {| i_shape := i_shape t; i_strides := set_at a (- nth a (i_strides orig) 0) (i_strides t);
         i_offset := i_offset t + (nth a (i_shape orig) 0 - 1) * nth a (i_strides orig) 0 |}
  end.
Definition ti_flip (axes : list nat) (t : tinfo) : tinfo := ti_flip_go t axes t.
(** has_basic_strides / is_reshape_valid / reshape, lines 88-124. *)
Definition zprod (l : list Z) : Z := fold_left Z.mul l 1.
Definition has_basic_strides (t : tinfo) : bool := list_eqb Z.eqb (compute_strides (i_shape t)) (i_strides t).
Definition is_reshape_valid (sh : list Z) (t : tinfo) : bool := (zprod (i_shape t) =? zprod sh) && has_basic_strides t.
Definition ti_reshape (sh : list Z) (t : tinfo) : tinfo :=
  {| i_shape := sh; i_strides := compute_strides sh; i_offset := i_offset t |}.

(* ---------------------------------------------------------------- *)
(** Assumption::create, symbolic/assumptions.cpp:118-221 ([None]: exception).
    The bounds are written as in <limits>. *)
Definition assum_range (lo hi : expr) : assumption :=
  {| lb_dep := lo; ub_dep := hi; lbs := [lo]; ubs := [hi]; tlb := None; tub := None; aconst := false; amap := None |}.
Definition prim_assum (p : prim) : option assumption :=
  match p with
  | Bool => Some (assum_range (EInt 0) (EInt 1))
  | UInt8 => Some (assum_range (EInt 0) (EInt 255))
  | UInt16 => Some (assum_range (EInt 0) (EInt 65535))
  | UInt32 => Some (assum_range (EInt 0) (EInt 4294967295))
  | UInt64 => Some (assum_range (EInt 0) EInf)
  | UInt128 => Some (assum_range (EInt 0) EInf)
  | Int8 => Some (assum_range (EInt (-128)) (EInt 127))
  | Int16 => Some (assum_range (EInt (-32768)) (EInt 32767))
  | Int32 => Some (assum_range (EInt (-2147483648)) (EInt 2147483647))
  | Int64 => Some (assum_range (EInt (-9223372036854775808)) (EInt 9223372036854775807))
  | Int128 => Some (assum_range ENegInf EInf)
  | _ => None
  end.
Definition type_assum (t : ty) : option assumption :=
  match t with
  | TScalar _ p => prim_assum p
  | TPointer _ _ => Some (assum_range (EInt 0) EInf)
  | _ => None
  end.
