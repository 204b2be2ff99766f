(** * C58: the C text of a symbolic expression or condition has its value *)
From Coq Require Import String ZArith List Bool Lia.
From Verif Require Import Sym Types Promote TaskC CParse CPrint.
Import ListNotations.
Local Open Scope string_scope.
Local Open Scope list_scope.
Local Open Scope Z_scope.

(** The text of [e] is an expression of the C grammar, with exactly one syntax tree; whenever that tree
    evaluates without undefined behaviour, over signed variables [V], the result is the value of [e]. *)
Theorem C58_expression_text_partial : forall V g s e,
  signed_env V g s -> printable V e = true -> int_powers s e = true ->
  exists a, parses 0 (pr e) (a, []) /\ der 0 (pr e) a /\ (forall b, der 0 (pr e) b -> b = a) /\
    forall v, xeval g s a = Some v -> ev s e = Fin v.
Proof.
  intros V g s e SE PR IP. destruct (expr_printed V g s SE e PR IP) as (a & D & [_ Val] & _).
  assert (D0 : der 0 (pr e) a) by (eapply der_up; eauto; lia).
  exists a. split; [apply parse_full; auto|]. split; auto. split; auto. intros b DB. eapply unambiguous; eauto.
Qed.
Theorem C58_condition_text_partial : forall V g s c,
  signed_env V g s -> cprintable V c = true -> cint_powers s c = true ->
  exists a, parses 0 (prc c) (a, []) /\ der 0 (prc c) a /\ (forall b, der 0 (prc c) b -> b = a) /\
    forall v b, xeval g s a = Some v -> cev s c = Some b -> v = (if b then 1 else 0).
Proof.
  intros V g s c SE PR IP. destruct (cond_printed V g s SE c PR IP) as (a & D & Val & _).
  assert (D0 : der 0 (prc c) a) by (eapply der_up; eauto; lia).
  exists a. split; [apply parse_full; auto|]. split; auto. split; auto. intros b DB. eapply unambiguous; eauto.
Qed.
(** The parser is the grammar: it accepts exactly one reading of every derivable text. *)
Theorem C58_grammar_unambiguous : forall ts a b, der 0 ts a -> der 0 ts b -> a = b.
Proof. exact unambiguous. Qed.

(** ** Examples *)
Ltac tree_of t := let r := eval vm_compute in t in lazymatch r with Some (?a, _) => exists a end.
Ltac value_of t := let r := eval vm_compute in t in lazymatch r with Some ?a => exists a end.
Ltac calc := vm_compute; reflexivity.
Definition e58 : expr :=
  EAdd [EInt 3; EMul [EInt (-1); ESym "i"]; EMul [EInt (-2); EAdd [ESym "j"; EInt 1]; EPow (ESym "k") 2];
        EMin [ESym "i"; EMul [EInt 4; ESym "j"]; ESym "k"]; EIdiv (EAdd [ESym "i"; EInt (-7)]) (ESym "k"); EIabs (EMul [EInt (-1); ESym "k"])].
Definition g58 (x : string) : cty := if String.eqb x "i" then TI true 64 else TI true 32.
Definition s58 (x : string) : Z := if String.eqb x "i" then 20 else if String.eqb x "j" then 5 else if String.eqb x "k" then -3 else 0.
Theorem C58_hypotheses :
  printable (fun _ => true) e58 = true /\ int_powers s58 e58 = true /\ signed_env (fun _ => true) g58 s58 /\
  (exists a, parse 200 0 (pr e58) = Some (a, []) /\ xeval g58 s58 a = Some (-129)) /\ ev s58 e58 = Fin (-129) /\
  cprintable (fun _ => true) (CAnd [CLt (ESym "i") (EInt 30); COr [CEq (ESym "j") (EInt 1); CNot (CNe (ESym "k") (EInt (-3)))]]) = true /\
  (exists a, parse 200 0 (prc (CAnd [CLt (ESym "i") (EInt 30); COr [CEq (ESym "j") (EInt 1); CNot (CNe (ESym "k") (EInt (-3)))]])) = Some (a, []) /\ xeval g58 s58 a = Some 1).
Proof.
  split; [reflexivity|]. split; [reflexivity|]. split.
  { intros x _. unfold g58, s58. destruct (String.eqb x "i"); [exists 64; split; [lia|]; split; [reflexivity|lia]|].
    exists 32. split; [lia|]. split; [reflexivity|]. destruct (String.eqb x "j"); [lia|]. destruct (String.eqb x "k"); lia. }
  split; [tree_of (parse 200 0 (pr e58)); split; calc|]. split; [calc|]. split; [reflexivity|]. tree_of (parse 200 0 (prc (CAnd [CLt (ESym "i") (EInt 30); COr [CEq (ESym "j") (EInt 1); CNot (CNe (ESym "k") (EInt (-3)))]]))); split; calc.
Qed.

(** ** What fails outside the hypotheses *)
(** An unsigned symbol: [i - 1] is printed [-1 + i], 2^32 - 1 when [i = 0]. *)
Theorem C58_unsigned_symbol_refuted : exists g s e a v,
  g "i" = TI false 32 /\ 0 <= s "i" < 2 ^ 32 /\ printable (fun _ => true) e = true /\ parse 100 0 (pr e) = Some (a, []) /\ xeval g s a = Some v /\ ev s e = Fin (-1) /\ v = 2 ^ 32 - 1.
Proof.
  exists (fun _ => TI false 32), (fun _ => 0), (EAdd [EInt (-1); ESym "i"]). tree_of (parse 100 0 (pr (EAdd [EInt (-1); ESym "i"]))). exists (2 ^ 32 - 1).
  split; [reflexivity|]. split; [lia|]. split; [reflexivity|]. split; [vm_compute; reflexivity|]. split; [vm_compute; reflexivity|]. split; reflexivity.
Qed.
(** zext_i64 is documented as zero-extension (symbolic.h:359-364); the text sign-extends a negative int. *)
Theorem C58_zext_refuted : exists g s a,
  signed_env (fun _ => true) g s /\ g "i" = TI true 32 /\ s "i" = -1 /\ parse 100 0 (pr (EZext (ESym "i"))) = Some (a, []) /\
  xeval g s a = Some (-1) /\ (-1) mod 2 ^ 32 = 2 ^ 32 - 1.
Proof.
  exists (fun _ => TI true 32), (fun x => if String.eqb x "i" then -1 else 0). tree_of (parse 100 0 (pr (EZext (ESym "i")))). split.
  { intros x _. exists 32. split; [lia|]. split; [reflexivity|]. destruct (String.eqb x "i"); lia. }
  split; [reflexivity|]. split; [reflexivity|]. split; [vm_compute; reflexivity|]. split; vm_compute; reflexivity.
Qed.
(** Arithmetic is done in the type of the symbols: [2*i] overflows an int although a 64-bit result would fit. *)
Theorem C58_narrow_refuted : exists a,
  parse 100 0 (pr (EMul [EInt 2; ESym "i"])) = Some (a, []) /\ xeval (fun _ => TI true 32) (fun _ => 2 ^ 30) a = None /\
  xeval (fun _ => TI true 64) (fun _ => 2 ^ 30) a = Some (2 ^ 31).
Proof. tree_of (parse 100 0 (pr (EMul [EInt 2; ESym "i"]))). split; [calc|]. split; calc. Qed.
(** A negated order relation would be printed [!i < j]; SymEngine does not build it. *)
Theorem C58_negated_order_refuted : exists a s,
  parse 100 0 (prc (CNot (CLt (ESym "i") (ESym "j")))) = Some (a, []) /\
  xeval (fun _ => TI true 32) s a = Some 1 /\ cev s (CNot (CLt (ESym "i") (ESym "j"))) = Some false.
Proof.
  tree_of (parse 100 0 (prc (CNot (CLt (ESym "i") (ESym "j"))))). exists (fun x => if String.eqb x "i" then 3 else 5). split; [vm_compute; reflexivity|]. split; vm_compute; reflexivity.
Qed.
(** Powers other than squares truncate their base to int. *)
Theorem C58_power_refuted : exists a s v,
  printable (fun _ => true) (EPow (ESym "i") 3) = true /\ parse 100 0 (pr (EPow (ESym "i") 3)) = Some (a, []) /\
  xeval (fun _ => TI true 64) s a = Some v /\ ev s (EPow (ESym "i") 3) <> Fin v.
Proof.
  tree_of (parse 100 0 (pr (EPow (ESym "i") 3))). exists (fun _ => 2 ^ 32 + 2), 8. split; [reflexivity|]. split; [vm_compute; reflexivity|]. split; [vm_compute; reflexivity|]. vm_compute. discriminate.
Qed.
