(** Executable models of the functions of sdfg/src/symbolic/. *)
From Verif Require Import Sym.

(* ================================================================ *)
(** * symbolic.cpp: integer functions *)

(** SymEngine::Integer::as_int() throws when the value does not fit a signed
    long; [None] stands for that exception (or for the C++ overflow
    LONG_MIN / -1). *)
Definition as_int (z : Z) : option Z := if in_int64 z then Some z else None.
Definition long_div (a b : Z) : option Z :=
  if (a =? int64_min) && (b =? -1) then None else Some (Z.quot a b).

(** symbolic::div, symbolic.cpp:84-103.  [None]: exception/overflow. *)
Definition sym_div (l r : expr) : option expr :=
  if expr_eqb r (EInt 0) then Some (EIdiv l r)
  else if expr_eqb r (EInt 1) then Some l
  else if expr_eqb l (EInt 0) then Some (EInt 0)
  else match l, r with
       | EInt a, EInt b =>
           match as_int a, as_int b with
           | Some a, Some b => option_map EInt (long_div a b)
           | _, _ => None
           end
       | _, _ => Some (EIdiv l r)
       end.

(** symbolic::mod, symbolic.cpp:114-116. *)
Definition sym_mod (l r : expr) : option expr :=
  match sym_div l r with Some d => Some (ssub l (smul d r)) | None => None end.

(** symbolic::divide_ceil, symbolic.cpp:52-63.
    free_symbols(dividend).empty() <-> no atoms.  SymEngine::ceiling of a
    rational constant is folded; otherwise it stays a ceiling expression. *)
Definition divide_ceil (a b : expr) : option expr :=
  match atoms a with
  | [] => match a, b with
          | EInt x, EInt y => if y =? 0 then Some (ECeilDiv a b) else Some (EInt (ceil_div x y))
          | _, _ => Some (ECeilDiv a b)
          end
  | _ => sym_div (sadd a (ssub b (EInt 1))) b
  end.

(** symbolic::simplify, symbolic.cpp:175-294, on arithmetic expressions.
    [fuel] bounds the recursion (it descends into a strictly smaller number of
    Max/zext nodes).  SymEngine::simplify, called last, is taken to be the
    identity (trusted library). *)
Fixpoint find_max (pre l : list expr) : option (list expr * list expr * list expr) :=
  (* first Max argument: (arguments before, its arguments, arguments after) *)
  match l with
  | [] => None
  | EMax m :: l' => Some (pre, m, l')
  | a :: l' => find_max (pre ++ [a]) l'
  end.

(** removes the first argument equal to [c] (symbolic.cpp:236-244) *)
Fixpoint drop_first (c : expr) (l : list expr) : option (list expr) :=
  match l with
  | [] => None
  | a :: l' => if expr_eqb a c then Some l' else option_map (cons a) (drop_first c l')
  end.

Definition nonneg_int (e : expr) : bool := match e with EInt z => 0 <=? z | _ => false end.

Definition smax_list (l : list expr) : expr :=
  match l with [] => EMax [] | a :: l' => fold_left smax l' a end.

Fixpoint simplify (fuel : nat) (e : expr) : option expr :=
  match fuel with
  | O => Some e
  | S fuel =>
    match e with
    | EAdd l =>
        match find_max [] l with
        | Some (pre, m, post) =>
            let rest := sadd_list (pre ++ post) in
            let fix go (m : list expr) : option (list expr) :=
              match m with
              | [] => Some []
              | a :: m' => match simplify fuel (sadd rest a), go m' with
                           | Some x, Some y => Some (x :: y) | _, _ => None end
              end in
            option_map smax_list (go m)
        | None => Some e
        end
    | EIdiv l r =>
        if expr_eqb r (EInt 0) then Some e
        else match l, r with
             | EMul args, EInt c =>
                 match drop_first r args with
                 | Some rest => Some (smul_list rest)
                 | None => Some e
                 end
             | EInt a, EInt b =>
                 match as_int a, as_int b with
                 | Some a, Some b => option_map EInt (long_div a b)
                 | _, _ => None
                 end
             | _, _ => Some e
             end
    | EImod (EInt a) (EInt b) =>
        match as_int a, as_int b with
        | Some a, Some b => if (b =? 0) || ((a =? int64_min) && (b =? -1)) then None  (* undefined behaviour *)
                            else Some (EInt (Z.rem a b))
        | _, _ => None
        end
    | EZext a =>
        match simplify fuel a with
        | None => None
        | Some sa =>
            let nn := match sa with
                      | EInt z => 0 <=? z
                      | EMax l => existsb nonneg_int l
                      | _ => false
                      end in
            if nn then Some sa
            else if expr_eqb a sa then Some e else Some (EZext sa)
        end
    | _ => Some e
    end
  end.

(** simplify on relations, symbolic.cpp:176-191. *)
Definition simplify_cond (fuel : nat) (c : cond) : option cond :=
  match c with
  | CLt a b => match simplify fuel a, simplify fuel b with
               | Some a, Some b => Some (slt a b) | _, _ => None end
  | CLe a b => match simplify fuel a, simplify fuel b with
               | Some a, Some b => Some (sle a b) | _, _ => None end
  | _ => Some c
  end.

(* ================================================================ *)
(** * Boolean connectives of SymEngine and conjunctive_normal_form.cpp *)

(** SymEngine logical_not: relations are negated by their dual, And/Or by De
    Morgan, Not is removed, constants folded. *)
Fixpoint snot (c : cond) : cond :=
  match c with
  | CBool b => CBool (negb b)
  | CEq a b => CNe a b
  | CNe a b => CEq a b
  | CLt a b => CLe b a
  | CLe a b => CLt b a
  | CAnd l => COr (map snot l)
  | COr l => CAnd (map snot l)
  | CNot c => c
  end.

Definition or_args (c : cond) : list cond := match c with COr l => l | _ => [c] end.
Definition and_args (c : cond) : list cond := match c with CAnd l => l | _ => [c] end.
Definition is_true (c : cond) : bool := match c with CBool true => true | _ => false end.
Definition is_false (c : cond) : bool := match c with CBool false => true | _ => false end.
Definition cmem (c : cond) (l : list cond) : bool := existsb (cond_eqb c) l.
Definition has_compl (l : list cond) : bool := existsb (fun c => cmem (snot c) l) l.

(** SymEngine::logical_or: flattens, drops False, True absorbs, x or not x = True
    (SymEngine logic.cpp and_or<Or>). *)
Definition sor (a b : cond) : cond :=
  let l := filter (fun c => negb (is_false c)) (or_args a ++ or_args b) in
  if existsb is_true l || has_compl l then CBool true
  else match l with [] => CBool false | [c] => c | _ => COr l end.
Definition sand (a b : cond) : cond :=
  let l := filter (fun c => negb (is_true c)) (and_args a ++ and_args b) in
  if existsb is_false l || has_compl l then CBool false
  else match l with [] => CBool true | [c] => c | _ => CAnd l end.

(** distribute_or, conjunctive_normal_form.cpp:11-20. *)
Definition distribute_or (C D : list (list cond)) : list (list cond) :=
  concat (map (fun c => map (fun d => c ++ d) D) C).

(** conjunctive_normal_form.cpp:22-169.  Equality/Unequality between boolean
    values (lines 27-63) cannot occur: operands of [CEq]/[CNe] are arithmetic.
    [None]: CNFException (or out of fuel; [cnf] supplies enough). *)
Fixpoint cnf_fuel (n : nat) (c : cond) : option (list (list cond)) :=
  match n with
  | O => None
  | S n =>
    match c with
    | CNot a =>
        match a with
        | CNot b => cnf_fuel n b
        | CAnd [a0; a1] => cnf_fuel n (sor (snot a0) (snot a1))
        | COr [a0; a1] => cnf_fuel n (sand (snot a0) (snot a1))
        | CEq l r => cnf_fuel n (CNe l r)
        | CNe l r => cnf_fuel n (CEq l r)
        | CLe l r => cnf_fuel n (CLt r l)
        | CLt l r => cnf_fuel n (CLe r l)
        | _ => None                       (* throw CNFException *)
        end
    | CAnd l =>
        fold_right (fun a acc => match cnf_fuel n a, acc with
                                 | Some x, Some y => Some (x ++ y) | _, _ => None end)
                   (Some []) l
    | COr [] => None
    | COr (a :: l) =>
        fold_left (fun acc b => match acc, cnf_fuel n b with
                                | Some x, Some y => Some (distribute_or x y) | _, _ => None end)
                  l (cnf_fuel n a)
    | _ => Some [[c]]
    end
  end.
Fixpoint csize (c : cond) : nat :=
  match c with
  | CAnd l | COr l => S (fold_right (fun a n => (csize a + n)%nat) O l)
  | CNot c => S (csize c)
  | _ => 1%nat
  end.
Definition cnf (c : cond) : option (list (list cond)) := cnf_fuel (2 * csize c) c.

(** IfElse::is_complete, structured_control_flow/if_else.cpp:41-57. *)
Definition is_complete (conds : list cond) : option bool :=
  let c := fold_left sor conds (CBool false) in
  match cnf c with
  | None => None
  | Some clauses =>
      Some (forallb (fun cl => is_true (fold_left sor cl (CBool false))) clauses)
  end.

(* ================================================================ *)
(** * assumptions.cpp / extreme_values.cpp *)

(** symbolic::Assumption, assumptions.cpp:9-24. *)
Record assumption := {
  lb_dep : expr; ub_dep : expr;           (* *_bound_deprecated *)
  lbs : list expr; ubs : list expr;       (* lower_bounds_, upper_bounds_ *)
  tlb : option expr; tub : option expr;   (* tight_*_bound *)
  aconst : bool;                          (* constant_ *)
  amap : option expr }.                   (* map_ *)
Definition assumptions := string -> option assumption.

(** Assumption::Assumption(symbol), assumptions.cpp:17-23. *)
Definition assum_default : assumption :=
  {| lb_dep := ENegInf; ub_dep := EInf; lbs := []; ubs := []; tlb := None; tub := None;
     aconst := false; amap := None |}.

(** Assumption::lower_bound / upper_bound, assumptions.cpp:54-97. *)
Definition smin_list (l : list expr) : expr :=
  match l with [] => EMin [] | a :: l' => fold_left smin l' a end.
Definition lower_bound (a : assumption) : expr :=
  let lb := match lbs a with [] => ENegInf | l => smax_list l end in
  match tlb a with
  | None => lb
  | Some t => if expr_eqb lb ENegInf then t else smax t lb
  end.
Definition upper_bound (a : assumption) : expr :=
  let ub := match ubs a with [] => EInf | l => smin_list l end in
  match tub a with
  | None => ub
  | Some t => if expr_eqb ub EInf then t else smin t ub
  end.

Definition opt_map2 {A B C} (f : A -> B -> C) (a : option A) (b : option B) : option C :=
  match a, b with Some x, Some y => Some (f x y) | _, _ => None end.

(** all-or-nothing map (a null entry makes the caller return null) *)
Fixpoint omap {A B} (f : A -> option B) (l : list A) : option (list B) :=
  match l with
  | [] => Some []
  | a :: l' => opt_map2 cons (f a) (omap f l')
  end.

(** The 2^n corner products (extreme_values.cpp:73-88): every choice of
    min/max per factor, multiplied left to right starting from 1. *)
Fixpoint corners (bs : list (expr * expr)) (acc : expr) : list expr :=
  match bs with
  | [] => [acc]
  | (lo, hi) :: bs' => corners bs' (smul acc lo) ++ corners bs' (smul acc hi)
  end.
Definition fold1 (f : expr -> expr -> expr) (l : list expr) : option expr :=
  match l with [] => None | a :: l' => Some (fold_left f l' a) end.

(** minimum / maximum, extreme_values.cpp:12-296.  [d] counts the remaining
    recursion depth: depth > MAX_DEPTH (= 100) is [d = 0]. *)
Fixpoint minimum_d (d : nat) (ps : list string) (A : assumptions) (e : expr) {struct d} : option expr :=
  match d with
  | O => None
  | S d =>
    match e with
    | EInt _ | EInf | ENegInf => Some e
    | EZext a => option_map EZext (minimum_d d ps A a)
    | ETrunc a => option_map ETrunc (minimum_d d ps A a)
    | ESym x => if existsb (String.eqb x) ps then Some e
                else match A x with
                     | Some a => minimum_d d ps A (lb_dep a)
                     | None => None
                     end
    | EMul l => match omap (fun a => opt_map2 pair (minimum_d d ps A a) (maximum_d d ps A a)) l with
                | Some bs => fold1 smin (corners bs (EInt 1))
                | None => None
                end
    | EAdd l => match omap (minimum_d d ps A) l with Some bs => fold1 sadd bs | None => None end
    | EMax l | EMin l => match omap (minimum_d d ps A) l with Some bs => fold1 smin bs | None => None end
    | _ => None
    end
  end
with maximum_d (d : nat) (ps : list string) (A : assumptions) (e : expr) {struct d} : option expr :=
  match d with
  | O => None
  | S d =>
    match e with
    | EInt _ | EInf | ENegInf => Some e
    | EZext a => option_map EZext (maximum_d d ps A a)
    | ETrunc a => option_map ETrunc (maximum_d d ps A a)
    | ESym x => if existsb (String.eqb x) ps then Some e
                else match A x with
                     | Some a => maximum_d d ps A (ub_dep a)
                     | None => None
                     end
    | EMul l => match omap (fun a => opt_map2 pair (minimum_d d ps A a) (maximum_d d ps A a)) l with
                | Some bs => fold1 smax (corners bs (EInt 1))
                | None => None
                end
    | EAdd l => match omap (maximum_d d ps A) l with Some bs => fold1 sadd bs | None => None end
    | EMax l | EMin l => match omap (maximum_d d ps A) l with Some bs => fold1 smax bs | None => None end
    | _ => None
    end
  end.
Definition max_depth : nat := 101.
Definition minimum := minimum_d max_depth.
Definition maximum := maximum_d max_depth.

(** non-null entries only (extreme_values.cpp:369-381) *)
Fixpoint ofilter {A B} (f : A -> option B) (l : list A) : list B :=
  match l with
  | [] => []
  | a :: l' => match f a with Some b => b :: ofilter f l' | None => ofilter f l' end
  end.

(** minimum_new / maximum_new, extreme_values.cpp:298-656. *)
Fixpoint minimum_new_d (d : nat) (ps : list string) (A : assumptions) (tight : bool) (e : expr) {struct d} : option expr :=
  match d with
  | O => None
  | S d =>
    match e with
    | EInf | ENegInf => None
    | EInt _ => Some e
    | EZext a => option_map EZext (minimum_new_d d ps A tight a)
    | ETrunc a => option_map ETrunc (minimum_new_d d ps A tight a)
    | ESym x =>
        if existsb (String.eqb x) ps then Some e
        else match A x with
             | Some a =>
                 if tight then
                   match tlb a with Some t => minimum_new_d d ps A tight t | None => None end
                 else fold1 smax (ofilter (minimum_new_d d ps A tight) (lbs a))
             | None => None
             end
    | EMul l => match omap (fun a => opt_map2 pair (minimum_new_d d ps A tight a)
                                               (maximum_new_d d ps A tight a)) l with
                | Some bs => fold1 smin (corners bs (EInt 1))
                | None => None
                end
    | EAdd l => match omap (minimum_new_d d ps A tight) l with Some bs => fold1 sadd bs | None => None end
    | EMax l | EMin l =>
        match omap (minimum_new_d d ps A tight) l with Some bs => fold1 smin bs | None => None end
    | _ => None
    end
  end
with maximum_new_d (d : nat) (ps : list string) (A : assumptions) (tight : bool) (e : expr) {struct d} : option expr :=
  match d with
  | O => None
  | S d =>
    match e with
    | EInf | ENegInf => None
    | EInt _ => Some e
    | EZext a => option_map EZext (maximum_new_d d ps A tight a)
    | ETrunc a => option_map ETrunc (maximum_new_d d ps A tight a)
    | ESym x =>
        if existsb (String.eqb x) ps then Some e
        else match A x with
             | Some a =>
                 if tight then
                   match tub a with Some t => maximum_new_d d ps A tight t | None => None end
                 else fold1 smin (ofilter (maximum_new_d d ps A tight) (ubs a))
             | None => None
             end
    | EMul l => match omap (fun a => opt_map2 pair (minimum_new_d d ps A tight a)
                                               (maximum_new_d d ps A tight a)) l with
                | Some bs => fold1 smax (corners bs (EInt 1))
                | None => None
                end
    | EAdd l => match omap (maximum_new_d d ps A tight) l with Some bs => fold1 sadd bs | None => None end
    | EMax l | EMin l =>
        match omap (maximum_new_d d ps A tight) l with Some bs => fold1 smax bs | None => None end
    | _ => None
    end
  end.
Definition minimum_new := minimum_new_d max_depth.
Definition maximum_new := maximum_new_d max_depth.

(* ================================================================ *)
(** * polynomials.cpp (degree <= 1), series.cpp, maps.cpp *)

(** polynomial + affine_coefficients for one symbol (polynomials.cpp:8-48):
    [Some (c, k)] means e = c*x + k with [x] in neither.  SymEngine's
    polynomial conversion is reproduced structurally; [None] = not a polynomial
    in [x], or of degree > 1. *)
Definition aff_mul (a b : expr * expr) : option (expr * expr) :=
  let '(c1, k1) := a in let '(c2, k2) := b in
  if expr_eqb c1 (EInt 0) then Some (smul k1 c2, smul k1 k2)
  else if expr_eqb c2 (EInt 0) then Some (smul c1 k2, smul k1 k2)
  else None.
Definition aff_add (a b : expr * expr) : expr * expr :=
  (sadd (fst a) (fst b), sadd (snd a) (snd b)).

Fixpoint affine (x : string) (e : expr) : option (expr * expr) :=
  match e with
  | ESym y => if String.eqb x y then Some (EInt 1, EInt 0) else Some (EInt 0, e)
  | EAdd l =>
      fold_right (fun a acc => match affine x a, acc with
                               | Some p, Some q => Some (aff_add p q) | _, _ => None end)
                 (Some (EInt 0, EInt 0)) l
  | EMul l =>
      fold_right (fun a acc => match affine x a, acc with
                               | Some p, Some q => aff_mul p q | _, _ => None end)
                 (Some (EInt 0, EInt 1)) l
  | _ => if uses e x then None else Some (EInt 0, e)
  end.

(** affine_inverse, polynomials.cpp:50-64: (x - k) idiv c. *)
Definition affine_inverse (x : string) (ck : expr * expr) : option expr :=
  if expr_eqb (fst ck) (EInt 0) then None
  else sym_div (ssub (ESym x) (snd ck)) (fst ck).
(** symbolic::inverse, symbolic.cpp:346-355. *)
Definition inverse (x : string) (e : expr) : option expr :=
  match affine x e with Some ck => affine_inverse x ck | None => None end.

(** series::affine_int_coeffs, series.cpp:10-34. *)
Definition affine_int_coeffs (e : expr) (x : string) (A : assumptions) : option (Z * Z) :=
  match affine x e with
  | None => None
  | Some (c, k) =>
      match minimum [] A c, minimum [] A k with
      | Some (EInt m), Some (EInt o) => Some (m, o)
      | _, _ => None
      end
  end.
(** series.cpp:36-72; as_int overflow is caught and yields false. *)
Definition series_monotonic_affine (e : expr) (x : string) (A : assumptions) : bool :=
  match affine_int_coeffs e x A with
  | Some (m, o) => match as_int m, as_int o with
                   | Some m, Some o => (0 <? m) && (0 <? o) | _, _ => false end
  | None => false
  end.
Definition is_contiguous (e : expr) (x : string) (A : assumptions) : bool :=
  match affine_int_coeffs e x A with
  | Some (m, o) => match as_int m, as_int o with
                   | Some m, Some o => (m =? 1) && (o =? 1) | _, _ => false end
  | None => false
  end.
(** series.cpp:74-94 and maps.cpp:46-72 (the same test): the base of the power
    is *not* compared with [x]. *)
Definition monotonic_pow (e : expr) (A : assumptions) : bool :=
  match e with
  | EPow (ESym b) n =>
      if Nat.leb n 0 then false
      else match minimum [] A (ESym b) with
           | Some m => is_true (sle (EInt 0) m)
           | None => false
           end
  | _ => false
  end.
Definition series_is_monotonic (e : expr) (x : string) (A : assumptions) : bool :=
  series_monotonic_affine e x A || monotonic_pow e A.

(** maps::is_monotonic_affine, maps.cpp:16-44. *)
Definition maps_monotonic_affine (e : expr) (x : string) (A : assumptions) : bool :=
  match affine x e with
  | None => false
  | Some (c, _) => match minimum [] A c with
                   | Some (EInt m) => match as_int m with Some m => 0 <? m | None => false end
                   | _ => false
                   end
  end.
Definition maps_is_monotonic (e : expr) (x : string) (A : assumptions) : bool :=
  maps_monotonic_affine e x A || monotonic_pow e A.

(** maps::is_disjoint_monotonic, maps.cpp:216-261.  [None]: assums1.at(sym)
    throws std::out_of_range for a symbol without assumption. *)
Definition can_analyze (e : expr) (x : string) (A : assumptions) : option bool :=
  fold_left (fun acc y => match acc with
                          | Some true => match A y with
                                         | Some a => Some (aconst a || String.eqb y x)
                                         | None => None end
                          | _ => acc end)
            (atoms e) (Some true).
Fixpoint is_disjoint_monotonic (e1 e2 : list expr) (x : string) (A : assumptions) : option bool :=
  match e1, e2 with
  | d1 :: e1', d2 :: e2' =>
      if expr_eqb d1 d2 then
        match can_analyze d1 x A with
        | None => None
        | Some true => if maps_is_monotonic d1 x A then Some true
                       else is_disjoint_monotonic e1' e2' x A
        | Some false => is_disjoint_monotonic e1' e2' x A
        end
      else is_disjoint_monotonic e1' e2' x A
  | _, _ => Some false
  end.
