(** WhileToForConversion.

    Models sdfg/src/passes/structured_control_flow/while_to_for_conversion.cpp:9-219
    and StructuredSDFGBuilder::convert_while, structured_sdfg_builder.cpp:1204-1233.

    Simplifications: all condition symbols are taken to be non-pointer integer
    scalars (lines 75-82); a conversion whose update sits inside a nested loop is
    reported as rejected ([None]) - the code accepts it. *)
From Verif Require Import Sym SymFuns IR PassCFG.

Fixpoint lookup_asg (i : string) (a : assigns) : option expr :=
  match a with [] => None | (x, e) :: a' => if String.eqb x i then Some e else lookup_asg i a' end.
(** while_to_for_conversion.cpp:188-190: the assignment of [i] becomes one of
    [ps]; the other assignments of the transition are left alone. *)
Fixpoint retarget (i ps : string) (a : assigns) : assigns :=
  match a with [] => [] | (x, e) :: a' => if String.eqb x i then (ps, e) :: a' else (x, e) :: retarget i ps a' end.
(** targets assigned by the same transition after [i] (the users of a
    transition's targets are chained in the order of the map, users.cpp:234-240) *)
Fixpoint asg_after (i : string) (a : assigns) : list string :=
  match a with [] => [] | (x, e) :: a' => if String.eqb x i then map fst a' else asg_after i a' end.

(** The transition that updates [i] (lines 90-91, 101-103, 172-176): its update
    expression, the subtree with the update retargeted to [ps] and every use of
    [i] after it renamed (lines 182-190), and the containers written after it
    (lines 112-117; users.cpp:946-978). *)
Fixpoint upd_seq (i ps : string) (s : seq) : option (expr * seq * list string) :=
  match s with
  | SNil => None
  | SCons n a r =>
      match lookup_asg i a with
      | Some u => Some (u, SCons n (retarget i ps a) (repl_seq i (ESym ps) r), asg_after i a ++ swrites r)
      | None =>
          match upd_node i ps n with
          | Some (u, n', l) => Some (u, SCons n' (repl_asg i (ESym ps) a) (repl_seq i (ESym ps) r), l ++ map fst a ++ swrites r)
          | None =>
              match upd_seq i ps r with
              | Some (u, r', l) => Some (u, SCons n a r', l)
              | None => None
              end
          end
      end
  end
with upd_node (i ps : string) (n : node) : option (expr * node * list string) :=
  match n with
  | NSeq s => match upd_seq i ps s with Some (u, s', l) => Some (u, NSeq s', l) | None => None end
  | NIf bs => match upd_brs i ps bs with Some (u, bs', l) => Some (u, NIf bs', l) | None => None end
  | _ => None
  end
with upd_brs (i ps : string) (b : brs) : option (expr * brs * list string) :=
  match b with
  | BNil => None
  | BCons c s r =>
      match upd_seq i ps s with
      | Some (u, s', l) => Some (u, BCons c s' r, l)
      | None => match upd_brs i ps r with Some (u, r', l) => Some (u, BCons c s r', l) | None => None end
      end
  end.

(** lines 119-145: break, continue or return outside nested loops *)
Fixpoint jumps_n (n : node) : bool :=
  match n with
  | NBreak | NContinue | NReturn _ => true
  | NSeq s => jumps_s s
  | NIf bs => jumps_b bs
  | NBlock _ | NWhile _ | NLoop _ _ _ _ _ _ => false
  end
with jumps_s (s : seq) : bool := match s with SNil => false | SCons n _ r => jumps_n n || jumps_s r end
with jumps_b (b : brs) : bool := match b with BNil => false | BCons _ s r => jumps_s s || jumps_b r end.

Fixpoint split_last (s : seq) : option (seq * node * assigns) :=
  match s with
  | SNil => None
  | SCons n a SNil => Some (SNil, n, a)
  | SCons n a r => match split_last r with Some (r', m, b) => Some (SCons n a r', m, b) | None => None end
  end.

(** lines 20-68: the loop ends in "if c1 break else continue" (or the reverse);
    the result is the condition under which it continues. *)
Definition exit_test (n : node) : option (cond * cond) :=
  match n with
  | NIf (BCons c1 (SCons b1 _ SNil) (BCons c2 (SCons b2 _ SNil) BNil)) =>
      match b1, b2 with
      | NBreak, NContinue => if cond_eqb (snot c1) c2 then Some (c1, c2) else None
      | NContinue, NBreak => if cond_eqb (snot c1) c2 then Some (c1, c1) else None
      | _, _ => None
      end
  | _ => None
  end.

Definition nwritten (i : string) (s : seq) : nat := count_occ string_dec (swrites s) i.
(** lines 70-99: exactly one symbol of the condition is written, exactly once *)
Definition moving (c : cond) (s : seq) : option string :=
  if forallb (fun x => Nat.leb (nwritten x s) 1) (catoms c) then
    match nodup string_dec (filter (fun x => Nat.eqb (nwritten x s) 1) (catoms c)) with
    | [i] => Some i
    | _ => None
    end
  else None.

(** can_be_applied (9-147) and apply (149-219); [ps] is the new name (180). *)
Definition while_to_for (ps : string) (body : seq) : option node :=
  match split_last body with
  | Some (pre, last, []) =>
      match pre with
      | SNil => None
      | _ =>
        match exit_test last with
        | Some (c1, c) =>
            match moving c1 body with
            | Some i =>
                match upd_seq i ps pre with
                | Some (u, pre', later) =>
                    if existsb (fun x => existsb (String.eqb x) later) (atoms u) || jumps_s pre then None
                    else Some (NLoop KFor i (ESym i) c u pre')
                | None => None
                end
            | None => None
            end
        | None => None
        end
      end
  | _ => None
  end.
