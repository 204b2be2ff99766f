(** A model of the part of nlohmann::json the code uses. Text rendering and
    parsing of a JSON value are the library's and not modelled; numbers are
    integers (no floating-point number is ever written by the modelled code).
    An object is an association list; writing a key that exists replaces it. *)
From Coq Require Export ZArith List Bool String.
Export ListNotations.

Inductive json : Type :=
| JNull
| JBool (b : bool)
| JNum (z : Z)
| JStr (s : string)
| JArr (l : list json)
| JObj (l : list (string * json)).

(** [j.contains(k)] / [j[k]] / [j.at(k)] *)
Fixpoint jlookup (l : list (string * json)) (k : string) : option json :=
  match l with
  | [] => None
  | (k', v) :: r => if String.eqb k k' then Some v else jlookup r k
  end.
Definition jget (j : json) (k : string) : option json :=
  match j with JObj l => jlookup l k | _ => None end.
Definition jcontains (j : json) (k : string) : bool :=
  match jget j k with Some _ => true | None => false end.
(** [get<T>()]: a value of another kind throws (here: [None]) *)
Definition as_num (j : json) : option Z := match j with JNum z => Some z | _ => None end.
Definition as_bool (j : json) : option bool := match j with JBool b => Some b | _ => None end.
Definition as_str (j : json) : option string := match j with JStr s => Some s | _ => None end.
Definition as_arr (j : json) : option (list json) := match j with JArr l => Some l | _ => None end.

Definition obind {A B} (o : option A) (f : A -> option B) : option B :=
  match o with Some a => f a | None => None end.
Notation "'let?' x := o 'in' k" := (obind o (fun x => k)) (at level 200, x pattern, o at level 100, k at level 200).
Fixpoint omap {A B} (f : A -> option B) (l : list A) : option (list B) :=
  match l with
  | [] => Some []
  | x :: r => let? y := f x in let? ys := omap f r in Some (y :: ys)
  end.
Lemma omap_map {A B C} (f : B -> option C) (g : A -> B) (h : A -> C) l :
  (forall x, In x l -> f (g x) = Some (h x)) -> omap f (map g l) = Some (map h l).
Proof.
  induction l as [|x l IH]; intros H; [reflexivity|]. simpl. rewrite (H x (or_introl eq_refl)).
  simpl. rewrite IH by (intros; apply H; right; assumption). reflexivity.
Qed.
