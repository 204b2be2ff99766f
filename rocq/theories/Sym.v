(** Symbolic expressions, conditions and their meaning.

    Models SymEngine expressions as used by sdfg/src/symbolic/symbolic.cpp.
    Simplifications:
    - symbols are strings and take values in unbounded [Z];
    - [sizeof], [malloc_usable_size] and [dynamic_sizeof] function symbols are
      not modelled (they are opaque constants at run time and can be read as
      symbols);
    - SymEngine's n-ary, sorted argument sets are lists here: a theorem about
      every list covers every argument order. *)
From Coq Require Export String.
From Coq Require Export List ZArith Lia Bool.
Export ListNotations.
Open Scope Z_scope.

(** Extended integers: a finite value, SymEngine's [Inf]/[NegInf], or [Bad]
    (NaN, or undefined behaviour such as a division by zero). *)
Inductive xv := Fin (z : Z) | PInf | NInf | Bad.

Inductive expr :=
| EInt (z : Z)                  (* SymEngine::Integer *)
| EInf | ENegInf                (* SymEngine::Inf / NegInf *)
| ESym (x : string)             (* SymEngine::Symbol *)
| EAdd (l : list expr)          (* SymEngine::Add, get_args *)
| EMul (l : list expr)          (* SymEngine::Mul, get_args *)
| EPow (b : expr) (n : nat)     (* SymEngine::Pow with a non-negative integer exponent *)
| EMax (l : list expr)          (* SymEngine::Max *)
| EMin (l : list expr)          (* SymEngine::Min *)
| EIdiv (a b : expr)            (* FunctionSymbol "idiv", symbolic.cpp:84-103 *)
| EImod (a b : expr)            (* FunctionSymbol "imod", symbolic.cpp:253-260 *)
| EIabs (a : expr)              (* FunctionSymbol "iabs", symbolic.cpp:109-112 *)
| EZext (a : expr)              (* ZExtI64Function, symbolic.h:371-374 *)
| ETrunc (a : expr)             (* TruncI32Function, symbolic.h:388-391 *)
| ECeilDiv (a b : expr).        (* SymEngine::ceiling(SymEngine::div(a,b)), symbolic.cpp:57-58 *)

(** Conditions (SymEngine::Boolean).  SymEngine has no [Gt]/[Ge]: they are
    [Lt]/[Le] with swapped arguments (symbolic.cpp:156-166). *)
Inductive cond :=
| CBool (b : bool)
| CEq (a b : expr) | CNe (a b : expr) | CLt (a b : expr) | CLe (a b : expr)
| CAnd (l : list cond) | COr (l : list cond) | CNot (c : cond).

(* ------------------------------------------------------------------ *)
(** Extended arithmetic. *)
Definition xadd (a b : xv) : xv :=
  match a, b with
  | Fin x, Fin y => Fin (x + y)
  | Bad, _ | _, Bad => Bad
  | PInf, NInf | NInf, PInf => Bad
  | PInf, _ | _, PInf => PInf
  | NInf, _ | _, NInf => NInf
  end.

Definition xopp (a : xv) : xv :=
  match a with Fin x => Fin (- x) | PInf => NInf | NInf => PInf | Bad => Bad end.

(** Infinity times a finite number (SymEngine: 0 * Inf = NaN). *)
Definition xsgn_inf (s : Z) : xv := if s =? 0 then Bad else if 0 <? s then PInf else NInf.
Definition xmul (a b : xv) : xv :=
  match a, b with
  | Fin x, Fin y => Fin (x * y)
  | Bad, _ | _, Bad => Bad
  | Fin x, PInf | PInf, Fin x => xsgn_inf x
  | Fin x, NInf | NInf, Fin x => xopp (xsgn_inf x)
  | PInf, PInf | NInf, NInf => PInf
  | PInf, NInf | NInf, PInf => NInf
  end.

Definition xmax (a b : xv) : xv :=
  match a, b with
  | Fin x, Fin y => Fin (Z.max x y)
  | Bad, _ | _, Bad => Bad
  | PInf, _ | _, PInf => PInf
  | NInf, y => y | x, NInf => x
  end.
Definition xmin (a b : xv) : xv :=
  match a, b with
  | Fin x, Fin y => Fin (Z.min x y)
  | Bad, _ | _, Bad => Bad
  | NInf, _ | _, NInf => NInf
  | PInf, y => y | x, PInf => x
  end.

Arguments xadd !a !b.
Arguments xmul !a !b.
Arguments xmax !a !b.
Arguments xmin !a !b.

Definition xlift2 (f : Z -> Z -> xv) (a b : xv) : xv :=
  match a, b with Fin x, Fin y => f x y | _, _ => Bad end.
Definition xlift1 (f : Z -> xv) (a : xv) : xv := match a with Fin x => f x | _ => Bad end.

(** C99 integer division: truncation toward zero, undefined for divisor 0.
    Code generation prints idiv as "/" (c_language_extension.cpp:476-477). *)
Definition cdiv (x y : Z) : xv := if y =? 0 then Bad else Fin (Z.quot x y).
Definition cmod (x y : Z) : xv := if y =? 0 then Bad else Fin (Z.rem x y).
(** ceil(x / y) over the rationals. *)
Definition ceil_div (x y : Z) : Z := - ((- x) / y).
Definition cceil (x y : Z) : xv := if y =? 0 then Bad else Fin (ceil_div x y).

Definition int64_min : Z := - 2 ^ 63.
Definition int64_max : Z := 2 ^ 63 - 1.
Definition in_int64 (z : Z) : bool := (int64_min <=? z) && (z <=? int64_max).
(** Two's complement wrap to [w] bits, signed. *)
Definition swrap (w z : Z) : Z := (z + 2 ^ (w - 1)) mod 2 ^ w - 2 ^ (w - 1).

(** zext_i64 is printed "((long long)((unsigned long long)(x)))"
    (c_language_extension.cpp:481-482): the identity on signed 64-bit values.
    Values outside that range cannot be produced by the signed arithmetic of
    the argument without overflow and are [Bad]. *)
Definition czext (z : Z) : xv := if in_int64 z then Fin z else Bad.
(** trunc_i32 is printed "((int)((unsigned int)((unsigned long long)(x))))"
    (c_language_extension.cpp:483-484). *)
Definition ctrunc (z : Z) : xv := if in_int64 z then Fin (swrap 32 z) else Bad.

(* ------------------------------------------------------------------ *)
Definition env := string -> Z.
Definition upd (s : env) (x : string) (v : Z) : env :=
  fun y => if String.eqb x y then v else s y.

Definition xsum (l : list xv) : xv := fold_right xadd (Fin 0) l.
Definition xprod (l : list xv) : xv := fold_right xmul (Fin 1) l.
(** SymEngine::max / min of an empty argument list throws: [Bad]. *)
Fixpoint xmaxl (l : list xv) : xv :=
  match l with [] => Bad | [a] => a | a :: l' => xmax a (xmaxl l') end.
Fixpoint xminl (l : list xv) : xv :=
  match l with [] => Bad | [a] => a | a :: l' => xmin a (xminl l') end.

(** Value of an expression: the C code printed for it
    (c_language_extension.cpp:360-515, SymEngine::CodePrinter for sums and products). *)
Fixpoint ev (s : env) (e : expr) : xv :=
  match e with
  | EInt z => Fin z
  | EInf => PInf
  | ENegInf => NInf
  | ESym x => Fin (s x)
  | EAdd l => xsum (map (ev s) l)
  | EMul l => xprod (map (ev s) l)
  | EPow b n => xlift1 (fun z => Fin (z ^ Z.of_nat n)) (ev s b)
  | EMax l => xmaxl (map (ev s) l)
  | EMin l => xminl (map (ev s) l)
  | EIdiv a b => xlift2 cdiv (ev s a) (ev s b)
  | EImod a b => xlift2 cmod (ev s a) (ev s b)
  | EIabs a => xlift1 (fun z => Fin (Z.abs z)) (ev s a)
  | EZext a => xlift1 czext (ev s a)
  | ETrunc a => xlift1 ctrunc (ev s a)
  | ECeilDiv a b => xlift2 cceil (ev s a) (ev s b)
  end.

(** The run-time (finite, defined) value. *)
Definition eval (s : env) (e : expr) : option Z :=
  match ev s e with Fin z => Some z | _ => None end.

Definition xle (a b : xv) : Prop :=
  match a, b with
  | Fin x, Fin y => x <= y
  | Bad, _ | _, Bad => False
  | NInf, _ | _, PInf => True
  | _, _ => False
  end.
Definition xleb (a b : xv) : option bool :=
  match a, b with
  | Fin x, Fin y => Some (x <=? y)
  | Bad, _ | _, Bad => None
  | NInf, _ | _, PInf => Some true
  | _, _ => Some false
  end.
Definition xeqb (a b : xv) : option bool :=
  match a, b with
  | Fin x, Fin y => Some (x =? y)
  | Bad, _ | _, Bad => None
  | NInf, NInf | PInf, PInf => Some true
  | _, _ => Some false
  end.
Definition onegb (o : option bool) : option bool :=
  match o with Some b => Some (negb b) | None => None end.
Definition oandb (a b : option bool) : option bool :=
  match a, b with Some x, Some y => Some (x && y) | _, _ => None end.
Definition oorb (a b : option bool) : option bool :=
  match a, b with Some x, Some y => Some (x || y) | _, _ => None end.

(** Truth of a condition.  Simplification: [None] (undefined behaviour) in any
    sub-condition makes the whole condition undefined, i.e. C's short-circuit
    evaluation is not exploited to mask a division by zero. *)
Fixpoint cev (s : env) (c : cond) : option bool :=
  match c with
  | CBool b => Some b
  | CEq a b => xeqb (ev s a) (ev s b)
  | CNe a b => onegb (xeqb (ev s a) (ev s b))
  | CLe a b => xleb (ev s a) (ev s b)
  | CLt a b => onegb (xleb (ev s b) (ev s a))
  | CAnd l => fold_right oandb (Some true) (map (cev s) l)
  | COr l => fold_right oorb (Some false) (map (cev s) l)
  | CNot c => onegb (cev s c)
  end.

(* ------------------------------------------------------------------ *)
(** Structural equality: SymEngine::eq (symbolic.cpp:296). *)
Fixpoint expr_eqb (a b : expr) {struct a} : bool :=
  let fix leq (l m : list expr) {struct l} : bool :=
    match l, m with
    | [], [] => true
    | x :: l', y :: m' => expr_eqb x y && leq l' m'
    | _, _ => false
    end in
  match a, b with
  | EInt x, EInt y => x =? y
  | EInf, EInf | ENegInf, ENegInf => true
  | ESym x, ESym y => String.eqb x y
  | EAdd l, EAdd m | EMul l, EMul m | EMax l, EMax m | EMin l, EMin m => leq l m
  | EPow x n, EPow y m => expr_eqb x y && Nat.eqb n m
  | EIdiv x y, EIdiv x' y' | EImod x y, EImod x' y'
  | ECeilDiv x y, ECeilDiv x' y' => expr_eqb x x' && expr_eqb y y'
  | EIabs x, EIabs y | EZext x, EZext y | ETrunc x, ETrunc y => expr_eqb x y
  | _, _ => false
  end.

Fixpoint cond_eqb (a b : cond) {struct a} : bool :=
  let fix leq (l m : list cond) {struct l} : bool :=
    match l, m with
    | [], [] => true
    | x :: l', y :: m' => cond_eqb x y && leq l' m'
    | _, _ => false
    end in
  match a, b with
  | CBool x, CBool y => Bool.eqb x y
  | CEq x y, CEq x' y' | CNe x y, CNe x' y'
  | CLt x y, CLt x' y' | CLe x y, CLe x' y' => expr_eqb x x' && expr_eqb y y'
  | CAnd l, CAnd m | COr l, COr m => leq l m
  | CNot x, CNot y => cond_eqb x y
  | _, _ => false
  end.

(** symbolic::uses (symbolic.cpp:309): does the symbol occur? *)
Fixpoint uses (e : expr) (x : string) : bool :=
  match e with
  | EInt _ | EInf | ENegInf => false
  | ESym y => String.eqb x y
  | EAdd l | EMul l | EMax l | EMin l => existsb (fun a => uses a x) l
  | EPow a _ | EIabs a | EZext a | ETrunc a => uses a x
  | EIdiv a b | EImod a b | ECeilDiv a b => uses a x || uses b x
  end.
Fixpoint cuses (c : cond) (x : string) : bool :=
  match c with
  | CBool _ => false
  | CEq a b | CNe a b | CLt a b | CLe a b => uses a x || uses b x
  | CAnd l | COr l => existsb (fun a => cuses a x) l
  | CNot a => cuses a x
  end.

(** symbolic::atoms (symbolic.cpp:313-321). *)
Fixpoint atoms (e : expr) : list string :=
  match e with
  | EInt _ | EInf | ENegInf => []
  | ESym y => [y]
  | EAdd l | EMul l | EMax l | EMin l => concat (map atoms l)
  | EPow a _ | EIabs a | EZext a | ETrunc a => atoms a
  | EIdiv a b | EImod a b | ECeilDiv a b => atoms a ++ atoms b
  end.
Fixpoint catoms (c : cond) : list string :=
  match c with
  | CBool _ => []
  | CEq a b | CNe a b | CLt a b | CLe a b => atoms a ++ atoms b
  | CAnd l | COr l => concat (map catoms l)
  | CNot a => catoms a
  end.

(** symbolic::subs (symbolic.cpp:325-337) for a symbol. *)
Fixpoint subs (e : expr) (x : string) (r : expr) : expr :=
  match e with
  | EInt _ | EInf | ENegInf => e
  | ESym y => if String.eqb x y then r else e
  | EAdd l => EAdd (map (fun a => subs a x r) l)
  | EMul l => EMul (map (fun a => subs a x r) l)
  | EMax l => EMax (map (fun a => subs a x r) l)
  | EMin l => EMin (map (fun a => subs a x r) l)
  | EPow a n => EPow (subs a x r) n
  | EIabs a => EIabs (subs a x r)
  | EZext a => EZext (subs a x r)
  | ETrunc a => ETrunc (subs a x r)
  | EIdiv a b => EIdiv (subs a x r) (subs b x r)
  | EImod a b => EImod (subs a x r) (subs b x r)
  | ECeilDiv a b => ECeilDiv (subs a x r) (subs b x r)
  end.
Fixpoint csubs (c : cond) (x : string) (r : expr) : cond :=
  match c with
  | CBool _ => c
  | CEq a b => CEq (subs a x r) (subs b x r)
  | CNe a b => CNe (subs a x r) (subs b x r)
  | CLt a b => CLt (subs a x r) (subs b x r)
  | CLe a b => CLe (subs a x r) (subs b x r)
  | CAnd l => CAnd (map (fun a => csubs a x r) l)
  | COr l => COr (map (fun a => csubs a x r) l)
  | CNot a => CNot (csubs a x r)
  end.

(* ------------------------------------------------------------------ *)
(** SymEngine constructors: constant folding and flattening.  Only the part
    of SymEngine's canonicalisation the docc code relies on (folding numbers,
    neutral elements) is reproduced. *)
Definition is_int (e : expr) : option Z := match e with EInt z => Some z | _ => None end.

Definition add_args (e : expr) : list expr := match e with EAdd l => l | _ => [e] end.
Definition mul_args (e : expr) : list expr := match e with EMul l => l | _ => [e] end.

(** SymEngine::add({...}): integers are folded into one leading constant. *)
Fixpoint split_ints (l : list expr) : list Z * list expr :=
  match l with
  | [] => ([], [])
  | e :: l' => let (zs, r) := split_ints l' in
               match e with EInt z => (z :: zs, r) | _ => (zs, e :: r) end
  end.
Definition zsum (l : list Z) : Z := fold_right Z.add 0 l.
Definition zprod (l : list Z) : Z := fold_right Z.mul 1 l.

Definition sadd_list (l : list expr) : expr :=
  let (zs, r) := split_ints (concat (map add_args l)) in
  let k := zsum zs in
  match r with
  | [] => EInt k
  | [e] => if k =? 0 then e else EAdd [EInt k; e]
  | _ => if k =? 0 then EAdd r else EAdd (EInt k :: r)
  end.
Definition sadd (a b : expr) : expr := sadd_list [a; b].

(** SymEngine::mul: like add; 0*x = 0 and 0*Inf = NaN.  Simplification: 0*x is
    folded only when [x] is total (cannot be undefined); SymEngine also folds
    0*idiv(a,b), the model leaves that product symbolic. *)
Definition nonempty {A} (l : list A) : bool := match l with [] => false | _ => true end.
Fixpoint total_expr (e : expr) : bool :=
  match e with
  | EInt _ | ESym _ => true
  | EAdd l | EMul l => forallb total_expr l
  | EMax l | EMin l => nonempty l && forallb total_expr l
  | EPow a _ | EIabs a => total_expr a
  | EInf | ENegInf | EIdiv _ _ | EImod _ _ | EZext _ | ETrunc _ | ECeilDiv _ _ => false
  end.
Definition smul_list (l : list expr) : expr :=
  let (zs, r) := split_ints (concat (map mul_args l)) in
  let k := zprod zs in
  match r with
  | [] => EInt k
  | [e] => if k =? 1 then e else if (k =? 0) && total_expr e then EInt 0 else EMul [EInt k; e]
  | _ => if k =? 1 then EMul r
         else if (k =? 0) && forallb total_expr r then EInt 0 else EMul (EInt k :: r)
  end.
Definition smul (a b : expr) : expr := smul_list [a; b].
Definition ssub (a b : expr) : expr := sadd a (smul (EInt (-1)) b).

Definition smax (a b : expr) : expr :=
  match a, b with
  | EInt x, EInt y => EInt (Z.max x y)
  | EInf, EInt _ | EInt _, EInf | EInf, EInf => EInf
  | ENegInf, EInt y => EInt y | EInt x, ENegInf => EInt x
  | _, _ => if expr_eqb a b then a else EMax [a; b]
  end.
Definition smin (a b : expr) : expr :=
  match a, b with
  | EInt x, EInt y => EInt (Z.min x y)
  | ENegInf, EInt _ | EInt _, ENegInf | ENegInf, ENegInf => ENegInf
  | EInf, EInt y => EInt y | EInt x, EInf => EInt x
  | _, _ => if expr_eqb a b then a else EMin [a; b]
  end.

(** SymEngine::Lt/Le/Eq/Ne: numbers (Infty is one) are compared, equal operands folded. *)
Definition slt (a b : expr) : cond :=
  match a, b with
  | EInt x, EInt y => CBool (x <? y)
  | EInt _, EInf | ENegInf, EInt _ | ENegInf, EInf => CBool true
  | EInf, EInt _ | EInt _, ENegInf | EInf, ENegInf => CBool false
  | _, _ => if expr_eqb a b then CBool false else CLt a b
  end.
Definition sle (a b : expr) : cond :=
  match a, b with
  | EInt x, EInt y => CBool (x <=? y)
  | EInt _, EInf | ENegInf, EInt _ | ENegInf, EInf => CBool true
  | EInf, EInt _ | EInt _, ENegInf | EInf, ENegInf => CBool false
  | _, _ => if expr_eqb a b then CBool true else CLe a b
  end.
