(** * The C text of symbolic expressions and conditions
    (codegen/language_extensions/c_language_extension.cpp:360-515) *)
From Coq Require Import String ZArith List Bool Lia.
From Verif Require Import Sym SymFacts Promote TaskC CParse.
Import ListNotations.
Local Open Scope string_scope.
Local Open Scope list_scope.
Local Open Scope Z_scope.

(** ** Printing.  SymEngine is not part of /repo: sums, products and order relations are printed by its
    StrPrinter / CodePrinter, whose behaviour is modelled here from its documentation; the functions,
    powers, logical operations and equalities by CSymbolicPrinter.  Macro calls [__daisy_min(a, b)] and
    [__daisy_max(a, b)] are expanded (rtl/include/daisy_rtl/daisy_rtl.h:131-132). *)
(** StrPrinter::bvisit(Add): a term that starts with "-" is subtracted. *)
Definition neg_start (ts : list tok) : option (list tok) := match ts with TOp Osub :: r => Some r | _ => None end.
Definition term_toks (ts : list tok) : list tok := match neg_start ts with Some r => TOp Osub :: r | None => TOp Oadd :: ts end.
Definition add_join (l : list (list tok)) : list tok := match l with [] => [] | t :: r => t ++ concat (map term_toks r) end.
Definition mul_join (l : list (list tok)) : list tok := match l with [] => [] | t :: r => t ++ concat (map (fun u => TOp Omul :: u) r) end.
Definition paren (ts : list tok) : list tok := TL :: ts ++ [TR].
(** __daisy_min / __daisy_max of the first argument and the rest, c_language_extension.cpp:421-473 *)
Definition mm2 (o : bop) (a b : list tok) : list tok :=
  paren (paren a ++ TOp o :: paren b ++ TQ :: paren a ++ TCol :: paren b).
Fixpoint mm (o : bop) (l : list (list tok)) : list tok :=
  match l with [] => [] | [a] => a | a :: l' => mm2 o a (mm o l') end.
Definition is_sum (e : expr) : bool := match e with EAdd _ => true | _ => false end.
Definition lit (z : Z) : list tok := if z <? 0 then [TOp Osub; TNum (- z)] else [TNum z].
Fixpoint pr (e : expr) : list tok :=
  let par f := if is_sum f then paren (pr f) else pr f in
  match e with
  | EInt z => lit z
  | ESym x => [TVar x]                                            (* 370-386, non-pointer symbols *)
  | EAdd l => add_join (map pr l)
  | EMul l =>                                                     (* StrPrinter::bvisit(Mul) *)
      match l with
      | EInt (-1) :: l' => TOp Osub :: mul_join (map par l')
      | _ => mul_join (map par l)
      end
  | EPow b n =>                                                   (* 496-514 *)
      if Nat.eqb n 2 then paren (paren (pr b) ++ TOp Omul :: paren (pr b))
      else TPow :: TL :: pr b ++ TComma :: [TNum (Z.of_nat n)] ++ [TR]
  | EMax l => mm Ogt (map pr l)
  | EMin l => mm Olt (map pr l)
  | EIdiv a b => paren (paren (pr a) ++ TOp Odiv :: paren (pr b))  (* 476-477 *)
  | EIabs a => paren ((paren (pr a) ++ TOp Olt :: [TNum 0]) ++ TQ :: (TOp Osub :: paren (pr a)) ++ TCol :: paren (pr a))
  | EZext a => paren (TCast (TI true 64) :: paren (TCast (TI false 64) :: paren (pr a)))
  | ETrunc a => paren (TCast (TI true 32) :: paren (TCast (TI false 32) :: paren (TCast (TI false 64) :: paren (pr a))))
  | EInf | ENegInf | EImod _ _ | ECeilDiv _ _ => []               (* INFINITY is a double; imod is rejected, 491-493 *)
  end.
Definition logic_join (o : bop) (l : list (list tok)) : list tok := match l with [] => [] | t :: r => t ++ concat (map (fun u => TOp o :: u) r) end.
Fixpoint prc (c : cond) : list tok :=
  match c with
  | CBool b => [TNum (b2z b)]                                     (* true and false of stdbool.h *)
  | CEq a b => paren (pr a ++ TOp Oeq :: pr b)
  | CNe a b => paren (pr a ++ TOp One :: pr b)
  | CLt a b => pr a ++ TOp Olt :: pr b                            (* StrPrinter: no parentheses *)
  | CLe a b => pr a ++ TOp Ole :: pr b
  | CAnd l => paren (logic_join Oand (map prc l))
  | COr l => paren (logic_join Oor (map prc l))
  | CNot c => paren (TNot :: prc c)
  end.

(** The expressions SymEngine builds (Add::is_canonical, Mul::is_canonical: sums and products are flat, the
    only literal factor comes first), that have C text and whose symbols are in [V]. *)
Definition is_lit (e : expr) : bool := match e with EInt _ => true | _ => false end.
Definition factor (e : expr) : bool := match e with EInt _ | EMul _ => false | _ => true end.
Definition nonempty {A} (l : list A) : bool := match l with [] => false | _ => true end.
Definition product (l : list expr) : bool :=
  match l with
  | EInt _ :: (_ :: _) as l' => forallb factor (tl l)
  | _ => nonempty l && forallb factor l
  end.
Fixpoint printable (V : string -> bool) (e : expr) : bool :=
  match e with
  | EInt _ => true
  | ESym x => V x
  | EAdd l => nonempty l && forallb (fun t => negb (is_sum t)) l && forallb (printable V) l
  | EMul l => product l && forallb (printable V) l
  | EPow b n => Nat.leb 2 n && (Z.of_nat n <? 2 ^ 31) && printable V b
  | EMax l | EMin l => nonempty (tl l) && forallb (printable V) l
  | EIdiv a b => printable V a && printable V b
  | EIabs a | EZext a | ETrunc a => printable V a
  | EInf | ENegInf | EImod _ _ | ECeilDiv _ _ => false
  end.
(** SymEngine has no negated order relation: [Not (a < b)] is built as [b <= a]. *)
Definition is_order (c : cond) : bool := match c with CLt _ _ | CLe _ _ => true | _ => false end.
Fixpoint cprintable (V : string -> bool) (c : cond) : bool :=
  match c with
  | CBool _ => true
  | CEq a b | CNe a b | CLt a b | CLe a b => printable V a && printable V b
  | CAnd l | COr l => nonempty l && forallb (cprintable V) l
  | CNot c => negb (is_order c) && cprintable V c
  end.

(** ** Value of C expressions: C17 6.3.1 and 6.5; [None] is undefined behaviour or a literal without a type *)
Definition cb (o : bop) : cbin :=
  match o with Oor => Blor | Oand => Bland | Oeq => Beq | One => Bne | Olt => Blt | Ogt => Bgt | Ole => Ble | Oge => Bge | Oadd => Badd | Osub => Bsub | Omul => Bmul | Odiv => Bdiv end.
Fixpoint xtyp (g : string -> cty) (a : cx) : cty :=
  match a with
  | XNum z => if z <? 2 ^ 31 then TI true 32 else TI true 64
  | XVar x => g x
  | XBin (Oadd | Osub | Omul | Odiv) a b => common (xtyp g a) (xtyp g b)
  | XBin _ _ _ | XNot _ | XPow _ _ => TI true 32
  | XNeg a => promo (xtyp g a)
  | XTern _ a b => common (xtyp g a) (xtyp g b)
  | XCast t _ => t
  end.
Fixpoint xeval (g : string -> cty) (s : env) (a : cx) : option Z :=
  match a with
  | XNum z => if z <? 2 ^ 63 then Some z else None
  | XVar x => Some (s x)
  | XBin Oand a b => obind (xeval g s a) (fun x => if x =? 0 then Some 0 else obind (xeval g s b) (fun y => Some (b2z (negb (y =? 0)))))
  | XBin Oor a b => obind (xeval g s a) (fun x => if x =? 0 then obind (xeval g s b) (fun y => Some (b2z (negb (y =? 0)))) else Some 1)
  | XBin o a b =>
      let t := common (xtyp g a) (xtyp g b) in
      obind (xeval g s a) (fun x => obind (xeval g s b) (fun y => bin_val (cb o) t (cconv t x) (cconv t y)))
  | XNeg a => obind (xeval g s a) (fun x => arith (promo (xtyp g a)) (- cconv (promo (xtyp g a)) x))
  | XNot a => obind (xeval g s a) (fun x => Some (b2z (x =? 0)))
  | XTern c a b => obind (xeval g s c) (fun x => obind (if x =? 0 then xeval g s b else xeval g s a) (fun y => Some (cconv (common (xtyp g a) (xtyp g b)) y)))
  | XCast t a => obind (xeval g s a) (fun x => Some (cconv t x))
  | XPow a b => obind (xeval g s a) (fun x => obind (xeval g s b) (fun y => sym_pow mul_checked x y))
  end.
(** every variable of [V] has a signed integer type and a value in its range *)
Definition signed_env (V : string -> bool) (g : string -> cty) (s : env) : Prop :=
  forall x, V x = true -> exists w, 8 <= w <= 64 /\ g x = TI true w /\ - 2 ^ (w - 1) <= s x < 2 ^ (w - 1).
(** The bases of powers other than squares are ints (the parameter type of [__daisy_sym_pow]). *)
Definition int_value (v : xv) : bool := match v with Fin z => (- 2 ^ 31 <=? z) && (z <? 2 ^ 31) | _ => false end.
Fixpoint int_powers (s : env) (e : expr) : bool :=
  match e with
  | EAdd l | EMul l | EMax l | EMin l => forallb (int_powers s) l
  | EPow b n => (Nat.eqb n 2 || int_value (ev s b)) && int_powers s b
  | EIdiv a b | EImod a b | ECeilDiv a b => int_powers s a && int_powers s b
  | EIabs a | EZext a | ETrunc a => int_powers s a
  | _ => true
  end.
Fixpoint cint_powers (s : env) (c : cond) : bool :=
  match c with
  | CEq a b | CNe a b | CLt a b | CLe a b => int_powers s a && int_powers s b
  | CAnd l | COr l => forallb (cint_powers s) l
  | CNot c => cint_powers s c
  | CBool _ => true
  end.

(** ** Proofs *)
Section Values.
Variable VS : string -> bool.
Variable g : string -> cty.
Variable s : env.
Hypothesis SE : signed_env VS g s.
Definition fitv (a : cx) : Prop := exists w, 8 <= w <= 64 /\ xtyp g a = TI true w /\ forall v, xeval g s a = Some v -> - 2 ^ (w - 1) <= v < 2 ^ (w - 1).
Definition VZ (a : cx) (f : xv) : Prop := fitv a /\ forall v, xeval g s a = Some v -> f = Fin v.
Lemma common_fits a b : fitv a -> fitv b -> exists w, 32 <= w <= 64 /\ common (xtyp g a) (xtyp g b) = TI true w /\
  (forall v, xeval g s a = Some v -> cconv (TI true w) v = v /\ - 2 ^ (w - 1) <= v < 2 ^ (w - 1)) /\ (forall v, xeval g s b = Some v -> cconv (TI true w) v = v /\ - 2 ^ (w - 1) <= v < 2 ^ (w - 1)).
Proof.
  intros (w1 & W1 & T1 & R1) (w2 & W2 & T2 & R2). rewrite T1, T2.
  assert (P : forall w, 8 <= w <= 64 -> promo (TI true w) = TI true (Z.max 32 w)).
  { intros w W. unfold promo. destruct (Z.ltb_spec w 32); f_equal; lia. }
  exists (Z.max (Z.max 32 w1) (Z.max 32 w2)). split; [lia|]. split.
  - unfold common. rewrite !P by lia. unfold wide. destruct (Z.eqb_spec (Z.max 32 w1) (Z.max 32 w2)) as [E|E]; [cbn [andb]; f_equal; lia|].
    destruct (Z.ltb_spec (Z.max 32 w1) (Z.max 32 w2)); f_equal; lia.
  - split; intros v E.
    + specialize (R1 v E). pose proof (pow_le (w1 - 1) (Z.max (Z.max 32 w1) (Z.max 32 w2) - 1) ltac:(lia)).
      split; [apply cconv_id; [lia|]; unfold trange; lia|lia].
    + specialize (R2 v E). pose proof (pow_le (w2 - 1) (Z.max (Z.max 32 w1) (Z.max 32 w2) - 1) ltac:(lia)).
      split; [apply cconv_id; [lia|]; unfold trange; lia|lia].
Qed.
Definition zop (o : bop) (x y : Z) : Z := match o with Oadd => x + y | Osub => x - y | Omul => x * y | _ => Z.quot x y end.
Definition arith_op (o : bop) : bool := match o with Oadd | Osub | Omul | Odiv => true | _ => false end.
Lemma checked_range w z v : checked w z = Some v -> v = z /\ - 2 ^ (w - 1) <= v < 2 ^ (w - 1).
Proof.
  unfold checked. destruct (Z.leb_spec (- 2 ^ (w - 1)) z); [|discriminate]. destruct (Z.ltb_spec z (2 ^ (w - 1))); [|discriminate]. intros E; inversion E; subst; auto.
Qed.
Lemma xeval_bin o a b : (match o with Oand | Oor => false | _ => true end) = true ->
  xeval g s (XBin o a b) = obind (xeval g s a) (fun x => obind (xeval g s b) (fun y => bin_val (cb o) (common (xtyp g a) (xtyp g b)) (cconv (common (xtyp g a) (xtyp g b)) x) (cconv (common (xtyp g a) (xtyp g b)) y))).
Proof. destruct o; try discriminate; reflexivity. Qed.
Lemma arith_ok o a b : arith_op o = true -> fitv a -> fitv b -> fitv (XBin o a b) /\ forall v, xeval g s (XBin o a b) = Some v ->
  exists x y, xeval g s a = Some x /\ xeval g s b = Some y /\ v = zop o x y /\ (o = Odiv -> y <> 0).
Proof.
  intros AO FA FB. destruct (common_fits a b FA FB) as (w & W & C & CA & CB).
  assert (T : xtyp g (XBin o a b) = TI true w) by (destruct o; try discriminate AO; exact C).
  assert (K : forall v, xeval g s (XBin o a b) = Some v -> exists x y, xeval g s a = Some x /\ xeval g s b = Some y /\ (o = Odiv -> y <> 0) /\ checked w (zop o x y) = Some v).
  { intros v E. rewrite xeval_bin in E by (destruct o; try discriminate AO; reflexivity).
    destruct (xeval g s a) as [x|] eqn:EA; [|discriminate]. cbn [obind] in E. destruct (xeval g s b) as [y|] eqn:EB; [|discriminate]. cbn [obind] in E.
    rewrite C, (proj1 (CA x eq_refl)), (proj1 (CB y eq_refl)) in E. exists x, y. split; auto. split; auto.
    destruct o; try discriminate AO; cbn [cb bin_val arith zop] in *; try (split; [discriminate|exact E]). destruct (Z.eqb_spec y 0); [discriminate|]. split; auto. }
  split.
  - exists w. split; [lia|]. split; auto. intros v E. destruct (K v E) as (x & y & _ & _ & _ & Q). apply checked_range in Q. apply Q.
  - intros v E. destruct (K v E) as (x & y & EA & EB & ND & Q). apply checked_range in Q. exists x, y. split; auto. split; auto. split; auto. apply Q.
Qed.
Definition cmp_op (o : bop) : option (Z -> Z -> bool) :=
  match o with Oeq => Some Z.eqb | One => Some (fun x y => negb (x =? y)) | Olt => Some Z.ltb | Ole => Some Z.leb | Ogt => Some (fun x y => y <? x) | Oge => Some (fun x y => y <=? x) | _ => None end.
Lemma cmp_ok o f a b v : cmp_op o = Some f -> fitv a -> fitv b -> xeval g s (XBin o a b) = Some v ->
  exists x y, xeval g s a = Some x /\ xeval g s b = Some y /\ v = b2z (f x y).
Proof.
  intros AO FA FB E. destruct (common_fits a b FA FB) as (w & W & C & CA & CB). rewrite xeval_bin in E by (destruct o; try discriminate AO; reflexivity).
  destruct (xeval g s a) as [x|] eqn:EA; [|discriminate]. cbn [obind] in E. destruct (xeval g s b) as [y|] eqn:EB; [|discriminate]. cbn [obind] in E.
  rewrite C, (proj1 (CA x eq_refl)), (proj1 (CB y eq_refl)) in E. exists x, y. split; auto. split; auto.
  destruct o; try discriminate AO; inversion AO; subst f; cbn [cb bin_val] in E; congruence.
Qed.
Lemma tern_ok c a b : fitv a -> fitv b -> fitv (XTern c a b) /\ forall v, xeval g s (XTern c a b) = Some v ->
  exists x, xeval g s c = Some x /\ (if x =? 0 then xeval g s b else xeval g s a) = Some v.
Proof.
  intros FA FB. destruct (common_fits a b FA FB) as (w & W & C & CA & CB).
  assert (K : forall v, xeval g s (XTern c a b) = Some v -> exists x, xeval g s c = Some x /\ (if x =? 0 then xeval g s b else xeval g s a) = Some v).
  { intros v E. cbn [xeval] in E. destruct (xeval g s c) as [x|]; [|discriminate]. cbn [obind] in E. exists x. split; auto. rewrite C in E.
    destruct (x =? 0).
    - destruct (xeval g s b) as [y|] eqn:EB; [|discriminate]. cbn [obind] in E. rewrite (proj1 (CB y eq_refl)) in E. exact E.
    - destruct (xeval g s a) as [y|] eqn:EA; [|discriminate]. cbn [obind] in E. rewrite (proj1 (CA y eq_refl)) in E. exact E. }
  split; auto. exists w. split; [lia|]. split; [exact C|]. intros v E. destruct (K v E) as (x & _ & Q). destruct (x =? 0); [apply CB in Q|apply CA in Q]; apply Q.
Qed.
Lemma neg_ok a : fitv a -> fitv (XNeg a) /\ forall v, xeval g s (XNeg a) = Some v -> exists x, xeval g s a = Some x /\ v = - x.
Proof.
  intros FA. destruct (common_fits a a FA FA) as (w & W & C & CA & _). destruct FA as (w1 & W1 & T1 & R1).
  rewrite T1 in C. rewrite common_self in C by lia.
  assert (K : forall v, xeval g s (XNeg a) = Some v -> exists x, xeval g s a = Some x /\ checked w (- x) = Some v).
  { intros v E. cbn [xeval] in E. destruct (xeval g s a) as [x|] eqn:EA; [|discriminate]. cbn [obind] in E. rewrite T1, C in E. rewrite (proj1 (CA x eq_refl)) in E. eauto. }
  split.
  - exists w. split; [lia|]. split; [cbn [xtyp]; rewrite T1; exact C|]. intros v E. destruct (K v E) as (x & _ & Q). apply checked_range in Q. apply Q.
  - intros v E. destruct (K v E) as (x & Q1 & Q). apply checked_range in Q. exists x. split; auto. apply Q.
Qed.
Lemma num_ok z : 0 <= z -> VZ (XNum z) (Fin z).
Proof.
  intros P. split.
  - exists (if z <? 2 ^ 31 then 32 else 64). split; [destruct (z <? 2 ^ 31); lia|]. split; [cbn [xtyp]; destruct (z <? 2 ^ 31); reflexivity|].
    intros v E. cbn [xeval] in E. destruct (Z.ltb_spec z (2 ^ 63)) as [L|]; [|discriminate]. inversion E; subst v. destruct (Z.ltb_spec z (2 ^ 31)) as [L'|]; cbn in *; lia.
  - intros v E. cbn [xeval] in E. destruct (z <? 2 ^ 63); inversion E; auto.
Qed.
Lemma var_ok x : VS x = true -> VZ (XVar x) (Fin (s x)).
Proof.
  intros HV. destruct (SE x HV) as (w & W & T & R). split; [exists w; split; [lia|]; split; auto; intros v E; inversion E; subst; auto|]. intros v E; inversion E; auto.
Qed.
(** products and sums *)
Lemma mul_acc (l : list (list tok * xv)) : Forall (fun p => exists a, der 7 (fst p) a /\ VZ a (snd p)) l ->
  forall t a f, der 6 t a -> VZ a f ->
  exists b, der 6 (t ++ concat (map (fun u => TOp Omul :: u) (map fst l))) b /\ fitv b /\
    forall v, xeval g s b = Some v -> exists x y, f = Fin x /\ xprod (map snd l) = Fin y /\ v = x * y.
Proof.
  induction 1 as [|[u fu] l (c & D & V) _ IH]; intros t a f DA [FA VA].
  - exists a. cbn [map concat]. rewrite app_nil_r. split; auto. split; auto. intros v E. exists v, 1. split; [auto|]. split; [reflexivity|lia].
  - cbn [map concat fst snd] in *. destruct V as [FC VC]. destruct (arith_ok Omul a c eq_refl FA FC) as [FM EM].
    assert (DM : der 6 (t ++ TOp Omul :: u) (XBin Omul a c)) by (apply (D_bin Omul); auto).
    assert (VM : VZ (XBin Omul a c) (xmul f fu)).
    { split; auto. intros v E. destruct (EM v E) as (x & y & EA & EC & -> & _). rewrite (VA _ EA), (VC _ EC). reflexivity. }
    destruct (IH _ _ _ DM VM) as (b & DB & FB & EB). exists b. rewrite <- app_assoc in DB. split; auto. split; auto.
    intros v E. destruct (EB v E) as (x & y & E1 & E2 & ->). cbn [xprod fold_right]. unfold xprod in E2. rewrite E2.
    destruct f as [zf| | |], fu as [zu| | |]; cbn in E1; try discriminate E1; try (unfold xsgn_inf in E1; repeat match type of E1 with context [if ?c then _ else _] => destruct c end; discriminate E1).
    inversion E1; subst x. exists zf, (zu * y). split; auto. split; [reflexivity|ring].
Qed.
(** a term of a sum: positive, or starting with a minus sign *)
Definition pos_term (ts : list tok) (f : xv) : Prop := neg_start ts = None /\ exists a, der 6 ts a /\ VZ a f.
Definition neg_term (ts : list tok) (f : xv) : Prop := exists r, neg_start ts = Some r /\ exists a, der 6 r a /\ fitv a /\ forall v, xeval g s a = Some v -> f = Fin (- v).
Lemma add_acc (l : list (list tok * xv)) : Forall (fun p => pos_term (fst p) (snd p) \/ neg_term (fst p) (snd p)) l ->
  forall t a f, der 5 t a -> VZ a f ->
  exists b, der 5 (t ++ concat (map term_toks (map fst l))) b /\ fitv b /\
    forall v, xeval g s b = Some v -> exists x y, f = Fin x /\ xsum (map snd l) = Fin y /\ v = x + y.
Proof.
  induction 1 as [|[u fu] l H _ IH]; intros t a f DA [FA VA].
  - exists a. cbn [map concat]. rewrite app_nil_r. split; auto. split; auto. intros v E. exists v, 0. split; [auto|]. split; [reflexivity|lia].
  - cbn [map concat fst snd] in *.
    assert (K : exists c, der 5 (t ++ term_toks u) c /\ VZ c (xadd f fu)).
    { unfold term_toks. destruct H as [(N & c & D & FC & VC)|(r & N & c & D & FC & VC)]; rewrite N.
      - destruct (arith_ok Oadd a c eq_refl FA FC) as [FM EM]. exists (XBin Oadd a c). split; [apply (D_bin Oadd); auto|]. split; auto.
        intros v E. destruct (EM v E) as (x & y & EA & EC & -> & _). rewrite (VA _ EA), (VC _ EC). reflexivity.
      - destruct (arith_ok Osub a c eq_refl FA FC) as [FM EM]. exists (XBin Osub a c). split; [apply (D_bin Osub); auto|]. split; auto.
        intros v E. destruct (EM v E) as (x & y & EA & EC & -> & _). rewrite (VA _ EA), (VC _ EC). reflexivity. }
    destruct K as (c & DM & VM). destruct (IH _ _ _ DM VM) as (b & DB & FB & EB). exists b. rewrite <- app_assoc in DB. split; auto. split; auto.
    intros v E. destruct (EB v E) as (x & y & E1 & E2 & ->). cbn [xsum fold_right]. unfold xsum in E2. rewrite E2.
    destruct f as [zf| | |], fu as [zu| | |]; cbn in E1; try discriminate E1.
    inversion E1; subst x. exists zf, (zu + y). split; auto. split; [reflexivity|ring].
Qed.

Definition plev (e : expr) : nat := match e with EAdd _ => 5 | EMul _ => 6 | EInt _ => 7 | _ => 8 end%nat.
Lemma par_der n ts a : der n ts a -> der 8 (paren ts) a.
Proof. intros D. apply D_par. eapply der_up; eauto. lia. Qed.
Definition par (f : expr) : list tok := if is_sum f then paren (pr f) else pr f.
Lemma pr_mul_lit c l : pr (EMul (EInt c :: l)) = if c =? -1 then TOp Osub :: mul_join (map par l) else mul_join (map par (EInt c :: l)).
Proof. destruct c as [|[p|p|]|[p|p|]]; reflexivity. Qed.
Lemma pr_mul_fac f l : is_lit f = false -> pr (EMul (f :: l)) = mul_join (map par (f :: l)).
Proof. destruct f; try discriminate; reflexivity. Qed.
Lemma first8_neg ts : first8 ts -> neg_start ts = None.
Proof. destruct ts as [|[]]; cbn; auto; contradiction. Qed.
Lemma lit_der z : exists a, der 7 (lit z) a /\ VZ a (Fin z) /\ (pos_term (lit z) (Fin z) \/ neg_term (lit z) (Fin z)).
Proof.
  unfold lit. destruct (Z.ltb_spec z 0).
  - pose proof (num_ok (- z) ltac:(lia)) as V. exists (XNeg (XNum (- z))). split; [apply D_neg; apply D_up; [lia|constructor]|]. 
    destruct (neg_ok _ (proj1 V)) as [FN EN]. split.
    + split; auto. intros v E. destruct (EN v E) as (x & EX & ->). apply (proj2 V) in EX. inversion EX. f_equal. lia.
    + right. exists [TNum (- z)]. split; [reflexivity|]. exists (XNum (- z)). split; [apply (der_up 8); [constructor|lia]|]. split; [apply V|].
      intros v E. apply (proj2 V) in E. inversion E. f_equal. lia.
  - pose proof (num_ok z ltac:(lia)) as V. exists (XNum z). split; [apply D_up; [lia|constructor]|]. split; auto. left. split; [reflexivity|].
    exists (XNum z). split; auto. apply (der_up 8); [constructor|lia].
Qed.
Lemma pow_loop_range e : forall b r z, pow_loop mul_checked e b r = Some z -> - 2 ^ 31 <= z < 2 ^ 31.
Proof.
  induction e as [e IH|e IH|]; intros b r z E; cbn [pow_loop] in E.
  - destruct (mul_checked r b); [|discriminate]. cbn [obind] in E. destruct (mul_checked b b); [|discriminate]. cbn [obind] in E. eauto.
  - destruct (mul_checked b b); [|discriminate]. cbn [obind] in E. eauto.
  - destruct (mul_checked r b) as [x|] eqn:M; [|discriminate]. cbn [obind] in E. destruct (mul_checked b b); [|discriminate]. cbn [obind] in E. inversion E; subst.
    unfold mul_checked in M. apply checked_range in M. apply M.
Qed.
Lemma minmax_ok (big : bool) (l : list (list tok * xv)) : Forall (fun p => exists a, der 0 (fst p) a /\ VZ a (snd p)) l -> l <> [] ->
  exists a, der 0 (mm (if big then Ogt else Olt) (map fst l)) a /\ (tl l <> [] -> der 8 (mm (if big then Ogt else Olt) (map fst l)) a) /\ VZ a ((if big then xmaxl else xminl) (map snd l)).
Proof.
  set (o := if big then Ogt else Olt). intros H. induction H as [|[t f] l (a & D & V) H IH]; intros NE; [congruence|].
  destruct l as [|q l].
  - exists a. cbn. split; auto. split; [congruence|]. destruct big; auto.
  - destruct (IH ltac:(discriminate)) as (b & DB & _ & VB). clear IH.
    set (ts := mm o (map fst (q :: l))) in *. assert (ME : mm o (map fst ((t, f) :: q :: l)) = mm2 o t ts) by reflexivity. rewrite ME. clear ME.
    set (fs := (if big then xmaxl else xminl) (map snd (q :: l))) in *.
    assert (XE : (if big then xmaxl else xminl) (map snd ((t, f) :: q :: l)) = (if big then xmax else xmin) f fs) by (destruct big; reflexivity).
    rewrite XE. clear XE. clearbody ts fs. cbn [fst snd] in *.
    assert (D8 : der 8 (mm2 o t ts) (XTern (XBin o a b) a b)).
    { pose proof (par_der _ _ _ D) as DA'. pose proof (par_der _ _ _ DB) as DB'. unfold mm2. apply (par_der 0).
      replace (paren t ++ TOp o :: paren ts ++ TQ :: paren t ++ TCol :: paren ts) with ((paren t ++ TOp o :: paren ts) ++ TQ :: paren t ++ TCol :: paren ts) by (rewrite <- app_assoc; reflexivity).
      apply D_tern; [|apply (der_up 8); auto; lia|apply (der_up 8); auto; lia]. apply (der_up (lev o)); [|destruct o; cbn; lia].
      apply D_bin; apply (der_up 8); auto; destruct o; cbn; lia. }
    exists (XTern (XBin o a b) a b). split; [apply (der_up 8); auto; lia|]. split; auto.
    destruct V as [FA VA], VB as [FB VB]. destruct (tern_ok (XBin o a b) a b FA FB) as [FT ET]. split; auto.
    intros v E. destruct (ET v E) as (x & EC & EV). unfold o in EC.
    destruct big.
    + destruct (cmp_ok Ogt (fun x y => y <? x) a b x eq_refl FA FB EC) as (xa & xb & EA & EB & ->). rewrite (VA _ EA), (VB _ EB). cbn.
      destruct (Z.ltb_spec xb xa); cbn [b2z Z.eqb] in EV; f_equal; [rewrite EA in EV|rewrite EB in EV]; inversion EV; lia.
    + destruct (cmp_ok Olt Z.ltb a b x eq_refl FA FB EC) as (xa & xb & EA & EB & ->). rewrite (VA _ EA), (VB _ EB). cbn.
      destruct (Z.ltb_spec xa xb); cbn [b2z Z.eqb] in EV; f_equal; [rewrite EA in EV|rewrite EB in EV]; inversion EV; lia.
Qed.
Definition printed (e : expr) : Prop := exists a, der (plev e) (pr e) a /\ VZ a (ev s e) /\ (is_sum e = false -> pos_term (pr e) (ev s e) \/ neg_term (pr e) (ev s e)).
Lemma plain8 e a : plev e = 8%nat -> der 8 (pr e) a -> VZ a (ev s e) -> printed e.
Proof.
  intros P D V. exists a. rewrite P. split; auto. split; auto. intros _. left. split; [apply first8_neg; eapply der8_first; eauto|]. exists a. split; auto. apply (der_up 8); auto; lia.
Qed.
Lemma par_fac f : factor f = true -> printed f -> exists a, der 8 (par f) a /\ VZ a (ev s f).
Proof.
  intros F (a & D & V & _). exists a. split; auto. unfold par. destruct f; try discriminate F; cbn [is_sum plev] in *; auto. eapply par_der; eauto.
Qed.
Lemma pairs (h : expr -> list tok) l : map fst (map (fun e => (h e, ev s e)) l) = map h l /\ map snd (map (fun e => (h e, ev s e)) l) = map (ev s) l.
Proof. rewrite !map_map. split; reflexivity. Qed.
Lemma expr_printed e : printable VS e = true -> int_powers s e = true -> printed e.
Proof.
  induction e as [z| | |x|l IH|l IH|b n IH|l IH|l IH|a b IHa IHb|a b IHa IHb|a IHa|a IHa|a IHa|a b IHa IHb] using expr_ind'; intros PR IP; try discriminate PR; cbn [printable int_powers] in PR, IP.
  - destruct (lit_der z) as (a & D & V & PN). exists a. split; auto.
  - apply (plain8 (ESym x) (XVar x)); [reflexivity|constructor|apply var_ok; exact PR].
  - (* sum *)
    apply andb_true_iff in PR. destruct PR as [PR PR3]. apply andb_true_iff in PR. destruct PR as [PR1 PR2].
    destruct l as [|t l]; [discriminate|]. cbn [forallb] in PR2, PR3, IP. apply andb_true_iff in PR2, PR3, IP. destruct PR2 as [S1 S2], PR3 as [P1 P2], IP as [I1 I2].
    inversion IH as [|? ? IH1 IH2]; subst. destruct (IH1 P1 I1) as (a & D & V & _).
    assert (D5 : der 5 (pr t) a). { eapply der_up; eauto. destruct t; try discriminate S1; cbn; lia. }
    destruct (add_acc (map (fun e => (pr e, ev s e)) l)) with (t := pr t) (a := a) (f := ev s t) as (b & DB & FB & EB); auto.
    { apply Forall_map, Forall_forall. intros u Hu. cbn [fst snd]. rewrite Forall_forall in IH2. rewrite forallb_forall in S2, P2, I2.
      destruct (IH2 u Hu (P2 u Hu) (I2 u Hu)) as (c & _ & _ & PN). apply PN. specialize (S2 u Hu). destruct (is_sum u); [discriminate|reflexivity]. }
    destruct (pairs pr l) as [E1 E2]. rewrite E1 in DB. rewrite E2 in EB. exists b. split; [exact DB|]. split; [|discriminate]. split; auto.
    intros v E. destruct (EB v E) as (x & y & Q1 & Q2 & ->). cbn [ev map xsum fold_right]. unfold xsum in Q2. rewrite Q1, Q2. reflexivity.
  - (* product *)
    apply andb_true_iff in PR. destruct PR as [PR1 PR2].
    assert (FAC : forall l', (forall u, In u l' -> In u l /\ factor u = true) -> Forall (fun p => exists a, der 7 (fst p) a /\ VZ a (snd p)) (map (fun e => (par e, ev s e)) l')).
    { intros l' H. apply Forall_map, Forall_forall. intros u Hu. destruct (H u Hu) as [HU F]. cbn [fst snd]. rewrite Forall_forall in IH. rewrite forallb_forall in PR2, IP.
      destruct (par_fac u F (IH u HU (PR2 u HU) (IP u HU))) as (a & D & V). exists a. split; auto. apply (der_up 8); auto; lia. }
    assert (ONE : forall u, In u l -> factor u = true -> exists a, der 8 (par u) a /\ VZ a (ev s u)).
    { intros u HU F. rewrite Forall_forall in IH. rewrite forallb_forall in PR2, IP. apply par_fac; auto. }
    destruct l as [|f l]; [discriminate|]. destruct (is_lit f) eqn:LF.
    + destruct f as [c| | | | | | | | | | | | | |]; try discriminate LF. destruct l as [|f1 l]; [discriminate PR1|]. cbn [product tl] in PR1. cbn [forallb] in PR1. apply andb_true_iff in PR1. destruct PR1 as [F1 FR]. rewrite forallb_forall in FR.
      destruct (ONE f1) as (a1 & D1 & V1); [right; left; reflexivity|auto|].
      assert (FL : Forall (fun p => exists a, der 7 (fst p) a /\ VZ a (snd p)) (map (fun e => (par e, ev s e)) l)) by (apply FAC; intros u Hu; split; [right; right; auto|auto]).
      destruct (pairs par l) as [E1 E2].
      (* the product without its sign *)
      assert (POS : forall t a0 z0, der 7 t a0 -> VZ a0 (Fin z0) -> exists b, der 6 (mul_join (t :: map par (f1 :: l))) b /\ fitv b /\ forall v, xeval g s b = Some v -> exists y, xprod (map (ev s) (f1 :: l)) = Fin y /\ v = z0 * y).
      { intros t a0 z0 D0 V0. destruct (mul_acc (map (fun e => (par e, ev s e)) (f1 :: l))) with (t := t) (a := a0) (f := Fin z0) as (b & DB & FB & EB); auto.
        { cbn [map]. constructor; auto. exists a1. split; auto. apply (der_up 8); auto; lia. }
        { apply (der_up 7); auto. }
        destruct (pairs par (f1 :: l)) as [E1' E2']. rewrite E1' in DB. rewrite E2' in EB. exists b. split; [exact DB|]. split; auto.
        intros v E. destruct (EB v E) as (x & y & Q1 & Q2 & ->). inversion Q1; subst x. eauto. }
      destruct (Z.eqb_spec c (-1)) as [->|NC].
      * (* -f1*... *)
        unfold printed. rewrite pr_mul_lit. cbn [Z.eqb Pos.eqb].
        destruct (mul_acc _ FL (par f1) a1 (ev s f1)) as (b & DB & FB & EB); [apply (der_up 8); auto; lia|auto|].
        rewrite E1 in DB. rewrite E2 in EB.
        destruct (neg_ok a1 (proj1 V1)) as [FN EN].
        destruct (mul_acc _ FL (TOp Osub :: par f1) (XNeg a1) (xmul (Fin (-1)) (ev s f1))) as (b' & DB' & FB' & EB').
        { apply D_up; [lia|]. apply D_neg. apply (der_up 8); auto; lia. }
        { split; auto. intros v E. destruct (EN v E) as (x & EX & ->). apply (proj2 V1) in EX. rewrite EX. cbn. destruct x; reflexivity. }
        rewrite E1 in DB'. rewrite E2 in EB'. exists b'. split; [exact DB'|]. split.
        -- split; auto. intros v E. destruct (EB' v E) as (x & y & Q1 & Q2 & ->). cbn [ev map xprod fold_right] in *. unfold xprod in Q2. rewrite Q2.
           destruct (ev s f1) as [z1| | |]; try discriminate Q1. cbn in Q1. inversion Q1; subst x. cbn. f_equal. destruct z1, y; cbn; lia.
        -- intros _. right. exists (mul_join (map par (f1 :: l))). split; [reflexivity|]. exists b. split; [exact DB|]. split; auto.
           intros v E. destruct (EB v E) as (x & y & Q1 & Q2 & ->). cbn [ev map xprod fold_right] in *. unfold xprod in Q2. rewrite Q1, Q2. cbn. destruct (x * y); reflexivity.
      * unfold printed. rewrite pr_mul_lit. destruct (Z.eqb_spec c (-1)); [congruence|].
        destruct (lit_der c) as (ac & DC & VC & PN). destruct (POS _ _ _ DC VC) as (b & DB & FB & EB).
        exists b. split; [exact DB|].
        assert (EVL : forall v, (exists y, xprod (map (ev s) (f1 :: l)) = Fin y /\ v = c * y) -> ev s (EMul (EInt c :: f1 :: l)) = Fin v).
        { intros v (y & Q & ->). change (xmul (Fin c) (xprod (map (ev s) (f1 :: l))) = Fin (c * y)). rewrite Q. reflexivity. }
        split; [split; auto|]. intros _.
        assert (MJ : mul_join (map par (EInt c :: f1 :: l)) = lit c ++ concat (map (fun u => TOp Omul :: u) (map par (f1 :: l)))) by reflexivity.
        rewrite MJ. destruct PN as [(N & _)|(r & N & cr & Dr & Fr & Er)].
        -- left. split; [destruct (lit c) as [|[| |o| | | | | | | |]]; cbn in *; auto; destruct o; auto; discriminate|]. exists b. split; auto. split; auto.
        -- right. exists (r ++ concat (map (fun u => TOp Omul :: u) (map par (f1 :: l)))). split.
           { destruct (lit c) as [|[| |o| | | | | | | |]]; cbn in N; try discriminate N. destruct o; try discriminate N. inversion N; subst. reflexivity. }
           destruct (mul_acc (map (fun e => (par e, ev s e)) (f1 :: l))) with (t := r) (a := cr) (f := Fin (- c)) as (b' & DB' & FB' & EB'); auto.
           { cbn [map]. constructor; auto. exists a1. split; auto. apply (der_up 8); auto; lia. }
           { split; auto. intros v E. apply Er in E. inversion E. f_equal. lia. }
           destruct (pairs par (f1 :: l)) as [E1' E2']. rewrite E1' in DB'. rewrite E2' in EB'. exists b'. split; [exact DB'|]. split; auto.
           intros v E. destruct (EB' v E) as (x & y & Q1 & Q2 & ->). inversion Q1; subst x. apply EVL. exists y. split; auto. lia.
    + assert (FF : forall u, In u (f :: l) -> factor u = true).
      { apply forallb_forall. destruct f; try discriminate LF; cbn [product nonempty andb] in PR1; exact PR1. }
      destruct (ONE f (or_introl eq_refl) (FF f (or_introl eq_refl))) as (a1 & D1 & V1).
      destruct (mul_acc (map (fun e => (par e, ev s e)) l)) with (t := par f) (a := a1) (f := ev s f) as (b & DB & FB & EB); auto.
      { apply FAC. intros u Hu. split; [right; auto|apply FF; right; auto]. }
      { apply (der_up 8); auto; lia. }
      destruct (pairs par l) as [E1 E2]. rewrite E1 in DB. rewrite E2 in EB.
      assert (VB : VZ b (ev s (EMul (f :: l)))).
      { split; auto. intros v E. destruct (EB v E) as (x & y & Q1 & Q2 & ->). cbn [ev map xprod fold_right]. unfold xprod in Q2. rewrite Q1, Q2. reflexivity. }
      unfold printed. rewrite pr_mul_fac by auto. exists b. split; [exact DB|]. split; auto. intros _. left. split; [|exists b; split; auto].
      pose proof (der8_first _ _ _ D1 eq_refl) as F8. unfold mul_join. cbn [map]. destruct (par f) as [|[]]; cbn in F8 |- *; auto; contradiction.
  - (* power *)
    apply andb_true_iff in PR, IP. destruct PR as [PR1 PRb], IP as [IP1 IPb]. apply andb_true_iff in PR1. destruct PR1 as [N2 N31].
    apply Nat.leb_le in N2. apply Z.ltb_lt in N31. destruct (IH PRb IPb) as (a & D & [FA VA] & _). destruct (Nat.eqb_spec n 2) as [->|NN].
    + destruct (arith_ok Omul a a eq_refl FA FA) as [FM EM]. apply (plain8 (EPow b 2) (XBin Omul a a)); [reflexivity| |].
      * cbn [pr Nat.eqb]. apply (par_der 6). apply (D_bin Omul); apply (der_up 8); try (eapply par_der; eauto); cbn; lia.
      * split; auto. intros v E. destruct (EM v E) as (x & y & EX & EY & -> & _). assert (x = y) by congruence. subst y. cbn [ev]. rewrite (VA _ EX). cbn. f_equal. lia.
    + apply (plain8 (EPow b n) (XPow a (XNum (Z.of_nat n)))); [reflexivity| |].
      * cbn [pr]. destruct (Nat.eqb_spec n 2); [congruence|]. apply (D_pow (pr b) a [TNum (Z.of_nat n)] (XNum (Z.of_nat n))); [eapply der_up; eauto; lia|apply (der_up 8); [constructor|lia]].
      * cbn [orb] in IP1.
        assert (K : forall v, xeval g s (XPow a (XNum (Z.of_nat n))) = Some v -> ev s (EPow b n) = Fin v /\ - 2 ^ 31 <= v < 2 ^ 31).
        { intros v E. cbn [xeval] in E. destruct (xeval g s a) as [x|] eqn:EX; [|discriminate]. cbn [obind] in E. destruct (Z.ltb_spec (Z.of_nat n) (2 ^ 63)); [|discriminate]. cbn [obind] in E.
          specialize (VA x eq_refl). rewrite VA in IP1. cbn [int_value] in IP1. apply andb_true_iff in IP1. destruct IP1 as [R1 R2]. apply Z.leb_le in R1. apply Z.ltb_lt in R2.
          unfold sym_pow in E. rewrite (swrap_id 32 (Z.of_nat n)), (swrap_id 32 x) in E by (cbn; lia). destruct (Z.of_nat n) as [|e|e] eqn:EN; [lia| |lia].
          cbn [ev]. rewrite VA, EN. cbn [xlift1]. split; [|eapply pow_loop_range; eauto]. apply pow_loop_checked in E. f_equal. lia. }
        split; [|intros v E; apply K; auto]. exists 32. split; [lia|]. split; [reflexivity|]. intros v E. apply K in E. cbn in *. lia.
  - (* max *)
    apply andb_true_iff in PR. destruct PR as [PR1 PR2]. 
    destruct (minmax_ok true (map (fun e => (pr e, ev s e)) l)) as (a & _ & D8 & V).
    { apply Forall_map, Forall_forall. intros u Hu. cbn [fst snd]. rewrite Forall_forall in IH. rewrite forallb_forall in PR2, IP. destruct (IH u Hu (PR2 u Hu) (IP u Hu)) as (a & D & V & _). exists a. split; auto. eapply der_up; eauto; lia. }
    { destruct l; discriminate. }
    destruct (pairs pr l) as [E1 E2]. rewrite E1 in D8. rewrite E2 in V. apply (plain8 (EMax l) a); [reflexivity|apply D8; destruct l as [|? [|]]; discriminate|exact V].
  - apply andb_true_iff in PR. destruct PR as [PR1 PR2]. 
    destruct (minmax_ok false (map (fun e => (pr e, ev s e)) l)) as (a & _ & D8 & V).
    { apply Forall_map, Forall_forall. intros u Hu. cbn [fst snd]. rewrite Forall_forall in IH. rewrite forallb_forall in PR2, IP. destruct (IH u Hu (PR2 u Hu) (IP u Hu)) as (a & D & V & _). exists a. split; auto. eapply der_up; eauto; lia. }
    { destruct l; discriminate. }
    destruct (pairs pr l) as [E1 E2]. rewrite E1 in D8. rewrite E2 in V. apply (plain8 (EMin l) a); [reflexivity|apply D8; destruct l as [|? [|]]; discriminate|exact V].
  - (* division *)
    apply andb_true_iff in PR, IP. destruct PR as [PA PB], IP as [IA IB]. destruct (IHa PA IA) as (x & DX & [FX VX] & _). destruct (IHb PB IB) as (y & DY & [FY VY] & _).
    destruct (arith_ok Odiv x y eq_refl FX FY) as [FM EM]. apply (plain8 (EIdiv a b) (XBin Odiv x y)); [reflexivity| |].
    + cbn [pr]. apply (par_der 6). apply (D_bin Odiv); apply (der_up 8); try (eapply par_der; eauto); cbn; lia.
    + split; auto. intros v E. destruct (EM v E) as (p & q & EP & EQ & -> & NZ). cbn [ev]. rewrite (VX _ EP), (VY _ EQ). cbn. unfold cdiv. destruct (Z.eqb_spec q 0); [exfalso; apply NZ; auto|reflexivity].
  - (* abs *)
    destruct (IHa PR IP) as (x & DX & [FX VX] & _). destruct (neg_ok x FX) as [FN EN]. pose proof (num_ok 0 ltac:(lia)) as [F0 V0].
    apply (plain8 (EIabs a) (XTern (XBin Olt x (XNum 0)) (XNeg x) x)); [reflexivity| |].
    + cbn [pr]. apply (par_der 0). pose proof (par_der _ _ _ DX) as DP. apply D_tern; [|apply (der_up 7); [apply D_neg; apply (der_up 8); auto; lia|lia]|apply (der_up 8); auto; lia].
      apply (der_up 4); [|lia]. apply (D_bin Olt); [apply (der_up 8); auto; cbn; lia|apply (der_up 8); [constructor|cbn; lia]].
    + destruct (tern_ok (XBin Olt x (XNum 0)) (XNeg x) x FN FX) as [FT ET]. split; auto. intros v E. destruct (ET v E) as (t & EC & EV).
      destruct (cmp_ok Olt Z.ltb x (XNum 0) t eq_refl FX F0 EC) as (p & q & EP & EQ & ->). apply V0 in EQ. inversion EQ; subst q. cbn [ev]. rewrite (VX _ EP). cbn [xlift1]. f_equal.
      destruct (Z.ltb_spec p 0); cbn [b2z Z.eqb] in EV; [destruct (EN v EV) as (p' & EP' & ->); assert (p' = p) by congruence; lia|assert (v = p) by congruence; lia].
  - (* zext *)
    destruct (IHa PR IP) as (x & DX & [(w & W & T & R) VX] & _).
    assert (K : forall v, xeval g s (XCast (TI true 64) (XCast (TI false 64) x)) = Some v -> xeval g s x = Some v /\ - 2 ^ 63 <= v < 2 ^ 63).
    { intros v E. cbn [xeval] in E. destruct (xeval g s x) as [u|] eqn:EU; [|discriminate]. cbn [obind] in E. specialize (R u eq_refl). pose proof (pow_le (w - 1) 63 ltac:(lia)).
      assert (EQ : cconv (TI true 64) (cconv (TI false 64) u) = u). { cbn [cconv]. rewrite <- (swrap_id 64 u) at 2 by (cbn; lia). apply swrap_cong; [lia|]. apply Z.mod_mod. discriminate. }
      rewrite EQ in E. inversion E; subst v. split; auto. lia. }
    apply (plain8 (EZext a) (XCast (TI true 64) (XCast (TI false 64) x))); [reflexivity| |].
    + cbn [pr]. apply (par_der 7), D_cast, D_up; [lia|]. apply (par_der 7), D_cast, D_up; [lia|]. eapply par_der; eauto.
    + split; [exists 64; split; [lia|]; split; [reflexivity|]; intros v E; apply K in E; cbn in *; lia|]. intros v E. apply K in E. destruct E as [E RR]. cbn [ev]. rewrite (VX _ E). cbn [xlift1]. unfold czext, in_int64, int64_min, int64_max.
      destruct (Z.leb_spec (- 2 ^ 63) v); [|lia]. destruct (Z.leb_spec v (2 ^ 63 - 1)); [reflexivity|lia].
  - (* trunc *)
    destruct (IHa PR IP) as (x & DX & [(w & W & T & R) VX] & _).
    assert (K : forall v, xeval g s (XCast (TI true 32) (XCast (TI false 32) (XCast (TI false 64) x))) = Some v -> exists u, xeval g s x = Some u /\ - 2 ^ 63 <= u < 2 ^ 63 /\ v = swrap 32 u).
    { intros v E. cbn [xeval] in E. destruct (xeval g s x) as [u|] eqn:EU; [|discriminate]. cbn [obind] in E. specialize (R u eq_refl). pose proof (pow_le (w - 1) 63 ltac:(lia)). exists u. split; auto. split; [lia|].
      inversion E as [E']. cbn [cconv]. apply swrap_cong; [lia|]. rewrite Z.mod_mod by discriminate. apply (mod_le 32 64); [lia|]. apply Z.mod_mod. discriminate. }
    apply (plain8 (ETrunc a) (XCast (TI true 32) (XCast (TI false 32) (XCast (TI false 64) x)))); [reflexivity| |].
    + cbn [pr]. apply (par_der 7), D_cast, D_up; [lia|]. apply (par_der 7), D_cast, D_up; [lia|]. apply (par_der 7), D_cast, D_up; [lia|]. eapply par_der; eauto.
    + split; [exists 32; split; [lia|]; split; [reflexivity|]; intros v E; apply K in E; destruct E as (u & _ & _ & ->); apply swrap_range; lia|]. intros v E. apply K in E. destruct E as (u & E & RR & ->). cbn [ev]. rewrite (VX _ E). cbn [xlift1]. unfold ctrunc, in_int64, int64_min, int64_max.
      destruct (Z.leb_spec (- 2 ^ 63) u); [|lia]. destruct (Z.leb_spec u (2 ^ 63 - 1)); [reflexivity|lia].
Qed.

(** conditions *)
Definition VB (a : cx) (f : option bool) : Prop := forall v b, xeval g s a = Some v -> f = Some b -> v = b2z b.
Definition clev (c : cond) : nat := match c with CLt _ _ | CLe _ _ => 4 | _ => 8 end%nat.
Lemma logic_acc (conj : bool) (l : list (list tok * option bool)) :
  let o := if conj then Oand else Oor in let f := if conj then oandb else oorb in let u := Some conj in
  Forall (fun p => exists a, der (S (lev o)) (fst p) a /\ VB a (snd p)) l ->
  forall t a x, der (lev o) t a -> VB a x ->
  exists b, der (lev o) (t ++ concat (map (fun u => TOp o :: u) (map fst l))) b /\ VB b (f x (fold_right f u (map snd l))).
Proof.
  intros o f u. induction 1 as [|[t1 f1] l (c & D & V) _ IH]; intros t a x DA VA.
  - exists a. cbn [map concat]. rewrite app_nil_r. split; auto. intros v b E Q. apply VA; auto. cbn in Q. unfold f, u in Q. destruct conj, x as [[]|]; auto.
  - cbn [map concat fst snd] in *.
    assert (DM : der (lev o) (t ++ TOp o :: t1) (XBin o a c)) by (apply D_bin; auto).
    assert (VM : VB (XBin o a c) (f x f1)).
    { intros v b E Q. unfold f, o in *. destruct conj; cbn [xeval] in E.
      - destruct x as [xb|]; [|discriminate]. destruct f1 as [yb|]; [|discriminate]. cbn in Q. inversion Q; subst b.
        destruct (xeval g s a) as [va|] eqn:XA; [|discriminate]. cbn [obind] in E. rewrite (VA va xb XA eq_refl) in E. destruct xb; cbn in E |- *; [|congruence].
        destruct (xeval g s c) as [vc|] eqn:XC; [|discriminate]. cbn [obind] in E. rewrite (V vc yb XC eq_refl) in E. destruct yb; cbn in *; congruence.
      - destruct x as [xb|]; [|discriminate]. destruct f1 as [yb|]; [|discriminate]. cbn in Q. inversion Q; subst b.
        destruct (xeval g s a) as [va|] eqn:XA; [|discriminate]. cbn [obind] in E. rewrite (VA va xb XA eq_refl) in E. destruct xb; cbn in E |- *; [congruence|].
        destruct (xeval g s c) as [vc|] eqn:XC; [|discriminate]. cbn [obind] in E. rewrite (V vc yb XC eq_refl) in E. destruct yb; cbn in *; congruence. }
    destruct (IH _ _ _ DM VM) as (b & DB & VBB). exists b. rewrite <- app_assoc in DB. split; auto. cbn [fold_right].
    replace (f x (f f1 (fold_right f u (map snd l)))) with (f (f x f1) (fold_right f u (map snd l))); auto.
    unfold f. destruct conj; destruct x as [[]|], f1 as [[]|]; cbn; try reflexivity; destruct (fold_right _ u _) as [[]|]; reflexivity.
Qed.
(** a single comparison (possibly negated): C evaluates both of its sides *)
Fixpoint leaf (c : cond) : bool := match c with CBool _ | CEq _ _ | CNe _ _ | CLt _ _ | CLe _ _ => true | CNot c => leaf c | CAnd _ | COr _ => false end.
Definition cprinted (c : cond) : Prop := exists a, der (clev c) (prc c) a /\ VB a (cev s c) /\ (leaf c = true -> forall v, xeval g s a = Some v -> cev s c <> None).
Lemma cond_printed c : cprintable VS c = true -> cint_powers s c = true -> cprinted c.
Proof.
  assert (CMP : forall o f a b, cmp_op o = Some f -> printed a -> printed b -> exists x, der (lev o) (pr a ++ TOp o :: pr b) x /\ forall v, xeval g s x = Some v -> exists p q, ev s a = Fin p /\ ev s b = Fin q /\ v = b2z (f p q)).
  { intros o f a b O (x & DX & [FX VX] & _) (y & DY & [FY VY] & _). exists (XBin o x y). split.
    - apply D_bin; eapply der_up; eauto; [destruct o; try discriminate O; destruct a; cbn; lia|destruct o; try discriminate O; destruct b; cbn; lia].
    - intros v E. destruct (cmp_ok o f x y v O FX FY E) as (p & q & EP & EQ & ->). exists p, q. auto. }
  induction c as [b|a b|a b|a b|a b|l IH|l IH|c IH] using cond_ind'; intros PR IP; cbn [cprintable cint_powers] in PR, IP.
  - exists (XNum (b2z b)). split; [constructor|]. split; [|intros _ v _; discriminate]. intros v b' E Q. inversion Q; subst b'. cbn [xeval] in E. destruct b; cbn in *; congruence.
  - apply andb_true_iff in PR, IP. destruct PR, IP. destruct (CMP Oeq _ a b eq_refl) as (x & D & V); [apply expr_printed; auto|apply expr_printed; auto|].
    exists x. split; [eapply par_der; eauto|]. split; [|intros _ v E; destruct (V v E) as (p & q & EP & EQ & _); cbn [cev]; rewrite EP, EQ; discriminate]. intros v b' E Q. destruct (V v E) as (p & q & EP & EQ & ->). cbn [cev] in Q. rewrite EP, EQ in Q. cbn in Q. congruence.
  - apply andb_true_iff in PR, IP. destruct PR, IP. destruct (CMP One _ a b eq_refl) as (x & D & V); [apply expr_printed; auto|apply expr_printed; auto|].
    exists x. split; [eapply par_der; eauto|]. split; [|intros _ v E; destruct (V v E) as (p & q & EP & EQ & _); cbn [cev]; rewrite EP, EQ; discriminate]. intros v b' E Q. destruct (V v E) as (p & q & EP & EQ & ->). cbn [cev] in Q. rewrite EP, EQ in Q. cbn in Q. congruence.
  - apply andb_true_iff in PR, IP. destruct PR, IP. destruct (CMP Olt _ a b eq_refl) as (x & D & V); [apply expr_printed; auto|apply expr_printed; auto|].
    exists x. split; [exact D|]. split; [|intros _ v E; destruct (V v E) as (p & q & EP & EQ & _); cbn [cev]; rewrite EP, EQ; discriminate]. intros v b' E Q. destruct (V v E) as (p & q & EP & EQ & ->). cbn [cev] in Q. rewrite EP, EQ in Q. cbn in Q. inversion Q. f_equal. destruct (Z.ltb_spec p q), (Z.leb_spec q p); cbn; auto; lia.
  - apply andb_true_iff in PR, IP. destruct PR, IP. destruct (CMP Ole _ a b eq_refl) as (x & D & V); [apply expr_printed; auto|apply expr_printed; auto|].
    exists x. split; [exact D|]. split; [|intros _ v E; destruct (V v E) as (p & q & EP & EQ & _); cbn [cev]; rewrite EP, EQ; discriminate]. intros v b' E Q. destruct (V v E) as (p & q & EP & EQ & ->). cbn [cev] in Q. rewrite EP, EQ in Q. cbn in Q. congruence.
  - apply andb_true_iff in PR. destruct PR as [PR1 PR2]. destruct l as [|c l]; [discriminate|]. cbn [forallb] in PR2, IP. apply andb_true_iff in PR2, IP. destruct PR2 as [P1 P2], IP as [I1 I2].
    inversion IH as [|? ? IH1 IH2]; subst. destruct (IH1 P1 I1) as (a & D & V & _).
    destruct (logic_acc true (map (fun c => (prc c, cev s c)) l)) with (t := prc c) (a := a) (x := cev s c) as (b & DB & VBB); auto.
    { apply Forall_map, Forall_forall. intros u Hu. cbn [fst snd]. rewrite Forall_forall in IH2. rewrite forallb_forall in P2, I2. destruct (IH2 u Hu (P2 u Hu) (I2 u Hu)) as (x & DX & VX & _). exists x. split; auto. eapply der_up; eauto. destruct u; cbn; lia. }
    { eapply der_up; eauto. destruct c; cbn; lia. }
    assert (E1 : map fst (map (fun c => (prc c, cev s c)) l) = map prc l) by (rewrite map_map; reflexivity). assert (E2 : map snd (map (fun c => (prc c, cev s c)) l) = map (cev s) l) by (rewrite map_map; reflexivity). rewrite E1 in DB. rewrite E2 in VBB. exists b. split; [apply (par_der _ _ _ DB)|]. split; [exact VBB|discriminate].
  - apply andb_true_iff in PR. destruct PR as [PR1 PR2]. destruct l as [|c l]; [discriminate|]. cbn [forallb] in PR2, IP. apply andb_true_iff in PR2, IP. destruct PR2 as [P1 P2], IP as [I1 I2].
    inversion IH as [|? ? IH1 IH2]; subst. destruct (IH1 P1 I1) as (a & D & V & _).
    destruct (logic_acc false (map (fun c => (prc c, cev s c)) l)) with (t := prc c) (a := a) (x := cev s c) as (b & DB & VBB); auto.
    { apply Forall_map, Forall_forall. intros u Hu. cbn [fst snd]. rewrite Forall_forall in IH2. rewrite forallb_forall in P2, I2. destruct (IH2 u Hu (P2 u Hu) (I2 u Hu)) as (x & DX & VX & _). exists x. split; auto. eapply der_up; eauto. destruct u; cbn; lia. }
    { eapply der_up; eauto. destruct c; cbn; lia. }
    assert (E1 : map fst (map (fun c => (prc c, cev s c)) l) = map prc l) by (rewrite map_map; reflexivity). assert (E2 : map snd (map (fun c => (prc c, cev s c)) l) = map (cev s) l) by (rewrite map_map; reflexivity). rewrite E1 in DB. rewrite E2 in VBB. exists b. split; [apply (par_der _ _ _ DB)|]. split; [exact VBB|discriminate].
  - apply andb_true_iff in PR. destruct PR as [NO PR]. destruct (IH PR IP) as (a & D & V & LF). exists (XNot a). split; [|split].
    + apply (par_der 7). apply D_not. eapply der_up; eauto. destruct c; try discriminate NO; cbn; lia.
    + intros v b E Q. cbn [xeval cev] in E, Q. destruct (xeval g s a) as [x|] eqn:XA; [|discriminate]. destruct (cev s c) as [b0|] eqn:XC; [|discriminate]. cbn [onegb obind] in *. rewrite (V x b0 XA eq_refl) in E. inversion Q; inversion E. destruct b0; reflexivity.
    + intros L v E. cbn [xeval cev leaf] in *. destruct (xeval g s a) as [x|] eqn:XA; [|discriminate]. specialize (LF L x eq_refl). destruct (cev s c); [discriminate|congruence].
Qed.
End Values.
