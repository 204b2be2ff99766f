(** What the instrumentation runtime is expected to do, on histories of calls. *)
From Coq Require Import List String ZArith QArith Bool Arith.
From Verif Require Import Instr.
Import ListNotations.
Local Open Scope string_scope.
Local Open Scope list_scope.
Local Open Scope nat_scope.

(** ** The calls of one region, as generated code makes them: init, any number of enter .. exit, finalize. *)
Inductive phase := Closed | Opened | Inside.
Definition next (p : phase) (h : hev) : option phase :=
  match p, h with
  | Closed, HInit _ _ => Some Opened
  | Opened, HEnter _ => Some Inside
  | Inside, HExit _ => Some Opened
  | Opened, HFin _ => Some Closed
  | Opened, HMetric _ _ _ => Some Opened
  | Inside, HMetric _ _ _ => Some Inside
  | _, _ => None end.
Definition of_region (u : string) (H : list (env * hev)) : list (env * hev) := filter (fun e => String.eqb (uuid (snd e)) u) H.
Definition follow (p : option phase) (e : env * hev) : option phase := match p with Some p => next p (snd e) | None => None end.
Definition phase_of (H : list (env * hev)) (u : string) : option phase := fold_left follow (of_region u H) (Some Closed).
(** The regions may be interleaved in any way, on any threads. *)
Definition protocol (H : list (env * hev)) : Prop := forall u, phase_of H u <> None.
Definition open_in (H : list (env * hev)) (u : string) : Prop := phase_of H u = Some Opened \/ phase_of H u = Some Inside.

(** ** What has been measured: the pairs of enter and exit of a region, and the entry not yet left *)
Definition span_step (a : list (env * env) * option env) (e : env * hev) : list (env * env) * option env :=
  match snd e, a with
  | HEnter _, (d, _) => (d, Some (fst e))
  | HExit _, (d, Some v) => (d ++ [(v, fst e)], None)
  | _, a => a end.
Definition spans_of (H : list (env * hev)) (u : string) : list (env * env) * option env := fold_left span_step (of_region u H) ([], None).
Definition spans (H : list (env * hev)) (u : string) : list (env * env) := fst (spans_of H u).
Definition pending (H : list (env * hev)) (u : string) : option env := snd (spans_of H u).
(** the event set given to the first init of the region *)
Definition set_step (a : option evset) (e : env * hev) : option evset := match a, snd e with None, HInit _ e => Some e | a, _ => a end.
Definition set_of (H : list (env * hev)) (u : string) : option evset := fold_left set_step (of_region u H) None.
(** the values reported for a metric *)
Definition metrics (H : list (env * hev)) (u n : string) : list Q :=
  flat_map (fun e => match snd e with HMetric _ m x => if String.eqb m n then [x] else [] | _ => [] end) (of_region u H).
Definition duration (p : env * env) : Z := (now (snd p) - now (fst p))%Z.
Definition deltas (n : nat) (p : env * env) : list Z := map (fun i => (rd (snd p) i - rd (fst p) i)%Z) (seq 0 n).

(** ** Statistics *)
Fixpoint qsum (l : list Q) : Q := match l with [] => 0%Q | x :: l => (x + qsum l)%Q end.
Record summary (l : list Q) (s : stat) : Prop := {
  sm_n : q_n s = Z.of_nat (List.length l);
  sm_mean : (q_mean s * inject_Z (Z.of_nat (List.length l)) == qsum l)%Q;
  sm_var : (q_var s * inject_Z (Z.of_nat (List.length l)) == qsum (map (fun x => (x - q_mean s) * (x - q_mean s))%Q l))%Q;
  sm_min : (forall x, In x l -> q_min s <= x)%Q /\ exists x, In x l /\ (x == q_min s)%Q;
  sm_max : (forall x, In x l -> x <= q_max s)%Q /\ exists x, In x l /\ (x == q_max s)%Q }.
(** the first start that is not 0 (0 stands for "not started") *)
Definition first_start (l : list Z) : Z := match filter (fun t => negb (Z.eqb t 0)) l with [] => 0%Z | t :: _ => t end.
(** the times at which the region was entered *)
Definition starts (H : list (env * hev)) (u : string) : list Z :=
  map (fun p => now (fst p)) (spans H u) ++ match pending H u with Some a => [now a] | None => [] end.
