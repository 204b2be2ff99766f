(** JSON serialization of structured programs: model of
    sdfg/src/serializer/json_serializer.cpp:56-1174.
    Text of expressions: SymEngine's printer and parser are parameters
    ([print], [printc], [base], [basec]); symbolic::parse (symbolic.cpp:338-343)
    is [parse]. Text rendering of a JSON value is the library's (see Json.v). *)
From Coq Require Import Lia.
From Verif Require Import Sym SymFacts SymFuns Json Types.
Local Open Scope string_scope.
Local Open Scope Z_scope.

(* ---------------------------------------------------------------- *)
(** * Programs *)
(** DebugInfo (element.h, element.cpp:5-27) *)
Record dbg := { d_has : bool; d_file : string; d_func : string; d_l1 : Z; d_c1 : Z; d_l2 : Z; d_c2 : Z }.
Definition dbg0 : dbg := {| d_has := false; d_file := ""; d_func := ""; d_l1 := 0; d_c1 := 0; d_l2 := 0; d_c2 := 0 |}.
(** Element (element.h): identifier and debug info *)
Definition elem := (Z * dbg)%type.
(** data_flow nodes: tasklet, library node (code, implementation type and the
    fields its own serializer writes), constant, access node (data_flow/*.h) *)
Inductive dnode :=
| DTasklet (code : Z) (inputs : list string) (output : string)
| DLib (code impl : string) (fields : list (string * json))
| DConst (data : string) (t : ty)
| DAccess (data : string).
(** Memlet (memlet.h): the end points are positions in the node list *)
Record dedge := { g_elem : elem; g_src : nat; g_dst : nat; g_sconn : string; g_dconn : string; g_subset : list expr; g_type : ty }.
(** ScheduleType (schedule_type.h): value, category, properties *)
Record sched := { h_value : string; h_cat : Z; h_props : list (string * string) }.
Definition asgs := list (string * expr).
(** structured_control_flow/*.h *)
Inductive cnode :=
| XBlock (e : elem) (nodes : list (elem * dnode)) (edges : list dedge)
| XSeq (q : cseq)
| XIf (e : elem) (bs : cbrs)
| XWhile (e : elem) (q : cseq)
| XFor (e : elem) (i : string) (init : expr) (c : cond) (u : expr) (q : cseq)
| XMap (e : elem) (i : string) (init : expr) (c : cond) (u : expr) (h : sched) (q : cseq)
| XBreak (e : elem) | XContinue (e : elem)
| XReturn (e : elem) (data : string) (t : option ty)
with cseq := CSeq (e : elem) (k : ckids)
with ckids := KNil | KCons (n : cnode) (te : elem) (a : asgs) (k : ckids)
with cbrs := QNil | QCons (c : cond) (q : cseq) (b : cbrs).
(** Function / StructuredSDFG (function.h:43-68, structured_sdfg.h).  [g_assumed]:
    the symbols that have an entry in assumptions_. *)
Record program := {
  p_name : string; p_counter : Z; p_type : string; p_ret : ty;
  p_structs : list (string * (list ty * bool));
  p_containers : list (string * ty);
  p_args : list string; p_exts : list (string * Z);
  p_meta : list (string * string);
  p_assumed : list string;
  p_root : cseq }.

(* ---------------------------------------------------------------- *)
(** * Serialization *)
Definition prims : list prim := [Void; Bool; Int8; Int16; Int32; Int64; Int128; UInt8; UInt16; UInt32; UInt64; UInt128; Half; BFloat; Float; Double; X86_FP80; FP128; PPC_FP128].
Fixpoint index_of (p : prim) (l : list prim) (k : Z) : Z := match l with [] => -1 | q :: r => if prim_eqb p q then k else index_of p r (k + 1) end.
(** an enum is written and read as its number (type.h:35-55) *)
Definition prim_num (p : prim) : Z := index_of p prims 0.
Definition prim_of_num (z : Z) : option prim := if z <? 0 then None else nth_error prims (Z.to_nat z).
Definition num_of_bool (b : bool) : Z := if b then 1 else 0.
Definition bool_of_num (z : Z) : option bool := if z =? 0 then Some false else if z =? 1 then Some true else None.
(** std::find / unordered_map lookup in an association list *)
Fixpoint assoc {A} (x : string) (l : list (string * A)) : option A := match l with [] => None | (y, a) :: r => if String.eqb x y then Some a else assoc x r end.
Definition mem (x : string) (l : list string) : bool := existsb (String.eqb x) l.

Section Serial.
  Variables (print : expr -> string) (printc : cond -> string) (base : string -> option expr) (basec : string -> option cond).
  (** symbolic::parse, symbolic.cpp:338-343: the symbols true and false become 1 and 0 *)
  Definition parse (s : string) : option expr := option_map (fun e => subs (subs e "true" (EInt 1)) "false" (EInt 0)) (base s).
  Definition parsec (s : string) : option cond := option_map (fun c => csubs (csubs c "true" (EInt 1)) "false" (EInt 0)) (basec s).

  (** storage_type_to_json, lines 466-479 *)
  Definition storage_json (s : storage) : json :=
    JObj ([("value", JStr (s_value s)); ("allocation", JNum (num_of_bool (s_alloc s))); ("deallocation", JNum (num_of_bool (s_dealloc s)))]
      ++ match s_size s with Some e => [("allocation_size", JStr (print e))] | None => [] end
      ++ match s_arg1 s with Some e => [("args", JArr [JStr (print e)])] | None => [] end).
  Definition attrs_json (a : attrs) : list (string * json) :=
    [("storage_type", storage_json (a_storage a)); ("initializer", JStr (a_init a)); ("alignment", JNum (Z.of_N (a_align a)))].
  (** the attributes of a default-constructed type (type.h:518-553) *)
  Definition attrs0 : attrs := {| a_storage := {| s_value := "CPU_Stack"; s_size := None; s_arg1 := None; s_alloc := false; s_dealloc := false |}; a_align := 0%N; a_init := "" |}.
  (** type_to_json, lines 355-433.  A reference's attributes are not written. *)
  Fixpoint type_json (t : ty) : json :=
    match t with
    | TScalar a p => JObj (("type", JStr "scalar") :: ("primitive_type", JNum (prim_num p)) :: attrs_json a)
    | TArray a e n => JObj (("type", JStr "array") :: ("element_type", type_json e) :: ("num_elements", JStr (print n)) :: attrs_json a)
    | TPointer a o => JObj (("type", JStr "pointer") :: match o with Some t => [("pointee_type", type_json t)] | None => [] end ++ attrs_json a)
    | TStruct a n => JObj (("type", JStr "structure") :: ("name", JStr n) :: attrs_json a)
    | TFunction a r va ps => JObj (("type", JStr "function") :: ("return_type", type_json r) :: ("params", JArr (map type_json ps)) :: ("is_var_arg", JBool va) :: attrs_json a)
    | TReference a r => JObj [("type", JStr "reference"); ("reference_type", type_json r)]
    | TTensor a p sh st o => JObj (("type", JStr "tensor") :: ("element_type", JObj (("type", JStr "scalar") :: ("primitive_type", JNum (prim_num p)) :: attrs_json attrs0))
        :: ("shape", JArr (map (fun e => JStr (print e)) sh)) :: ("strides", JArr (map (fun e => JStr (print e)) st)) :: ("offset", JStr (print o)) :: attrs_json a)
    end.
  (** debug_info_to_json, lines 446-454 *)
  Definition dbg_json (d : dbg) : json :=
    JObj [("has", JBool (d_has d)); ("filename", JStr (d_file d)); ("function", JStr (d_func d)); ("start_line", JNum (d_l1 d)); ("start_column", JNum (d_c1 d)); ("end_line", JNum (d_l2 d)); ("end_column", JNum (d_c2 d))].
  Definition elem_json (e : elem) : list (string * json) := [("element_id", JNum (fst e)); ("debug_info", dbg_json (snd e))].
  (** dataflow_to_json, lines 112-184; a library node's own fields are merged in *)
  Definition dnode_json (n : elem * dnode) : json :=
    JObj (elem_json (fst n) ++
      match snd n with
      | DTasklet c i o => [("type", JStr "tasklet"); ("code", JNum c); ("inputs", JArr (map JStr i)); ("output", JStr o)]
      | DLib c im f => ("type", JStr "library_node") :: ("implementation_type", JStr im) :: ("code", JStr c) :: f
      | DConst d t => [("type", JStr "constant_node"); ("data", JStr d); ("data_type", type_json t)]
      | DAccess d => [("type", JStr "access_node"); ("data", JStr d)]
      end).
  Definition id_at (nodes : list (elem * dnode)) (k : nat) : Z := match nth_error nodes k with Some n => fst (fst n) | None => -1 end.
  Definition edge_json (nodes : list (elem * dnode)) (g : dedge) : json :=
    JObj (elem_json (g_elem g) ++ [("src", JNum (id_at nodes (g_src g))); ("dst", JNum (id_at nodes (g_dst g))); ("src_conn", JStr (g_sconn g)); ("dst_conn", JStr (g_dconn g));
      ("subset", JArr (map (fun e => JStr (print e)) (g_subset g))); ("base_type", type_json (g_type g))]).
  Definition dataflow_json (nodes : list (elem * dnode)) (edges : list dedge) : json :=
    JObj [("type", JStr "dataflow"); ("nodes", JArr (map dnode_json nodes)); ("edges", JArr (map (edge_json nodes) edges))].
  (** schedule_type_to_json, lines 457-464 *)
  Definition sched_json (h : sched) : json :=
    JObj [("value", JStr (h_value h)); ("category", JNum (h_cat h)); ("properties", JObj (map (fun p => (fst p, JStr (snd p))) (h_props h)))].
  (** transitions, lines 334-351 *)
  Definition trans_json (te : elem) (a : asgs) : json :=
    JObj (("type", JStr "transition") :: elem_json te ++ [("assignments", JArr (map (fun xe => JObj [("symbol", JStr (fst xe)); ("expression", JStr (print (snd xe)))]) a))]).
  Fixpoint trs_json (k : ckids) : list json := match k with KNil => [] | KCons n te a k => trans_json te a :: trs_json k end.
  (** lines 186-353 *)
  Fixpoint node_json (n : cnode) : json :=
    match n with
    | XBlock e ns es => JObj (("type", JStr "block") :: elem_json e ++ [("dataflow", dataflow_json ns es)])
    | XSeq q => seq_json q
    | XIf e bs => JObj (("type", JStr "if_else") :: elem_json e ++ [("branches", JArr (brs_json bs))])
    | XWhile e q => JObj (("type", JStr "while") :: elem_json e ++ [("root", seq_json q)])
    | XFor e i init c u q => JObj (("type", JStr "for") :: elem_json e ++ [("indvar", JStr i); ("init", JStr (print init)); ("condition", JStr (printc c)); ("update", JStr (print u)); ("root", seq_json q)])
    | XMap e i init c u h q => JObj (("type", JStr "map") :: elem_json e ++ [("indvar", JStr i); ("init", JStr (print init)); ("condition", JStr (printc c)); ("update", JStr (print u)); ("schedule_type", sched_json h); ("root", seq_json q)])
    | XBreak e => JObj (("type", JStr "break") :: elem_json e)
    | XContinue e => JObj (("type", JStr "continue") :: elem_json e)
    | XReturn e d t => JObj (("type", JStr "return") :: elem_json e ++ ("data", JStr d) :: match t with Some t => [("data_type", type_json t)] | None => [] end)
    end
  with seq_json (q : cseq) : json :=
    match q with CSeq e k => JObj (("type", JStr "sequence") :: elem_json e ++ [("children", JArr (kids_json k)); ("transitions", JArr (trs_json k))]) end
  with kids_json (k : ckids) : list json := match k with KNil => [] | KCons n te a k => node_json n :: kids_json k end
  with brs_json (b : cbrs) : list json := match b with QNil => [] | QCons c q b => JObj [("condition", JStr (printc c)); ("root", seq_json q)] :: brs_json b end.
  (** structure_definition_to_json, lines 435-444 *)
  Definition struct_json (s : string * (list ty * bool)) : json :=
    JObj [("name", JStr (fst s)); ("members", JArr (map type_json (fst (snd s)))); ("is_packed", JBool (snd (snd s)))].
  (** serialize, lines 56-110.  The assumptions are not written. *)
  Definition serialize (p : program) : json :=
    JObj [("name", JStr (p_name p)); ("element_counter", JNum (p_counter p)); ("type", JStr (p_type p)); ("return_type", type_json (p_ret p));
      ("structures", JArr (map struct_json (p_structs p)));
      ("containers", JObj (map (fun xt => (fst xt, type_json (snd xt))) (p_containers p)));
      ("arguments", JArr (map JStr (p_args p)));
      ("externals", JArr (map (fun xl => JObj [("name", JStr (fst xl)); ("linkage_type", JNum (snd xl))]) (p_exts p)));
      ("metadata", JObj (map (fun xm => (fst xm, JStr (snd xm))) (p_meta p)));
      ("root", seq_json (p_root p))].

  (* ---------------------------------------------------------------- *)
  (** * Deserialization; [None]: exception or failed assertion *)
  Definition sget (j : json) (k : string) : option string := obind (jget j k) as_str.
  Definition nget (j : json) (k : string) : option Z := obind (jget j k) as_num.
  Definition aget (j : json) (k : string) : option (list json) := obind (jget j k) as_arr.
  Definition bget (j : json) (k : string) : option bool := obind (jget j k) as_bool.
  Definition eget (j : json) (k : string) : option expr := obind (sget j k) parse.
  Definition cget (j : json) (k : string) : option cond := obind (sget j k) parsec.
  Definition oget (j : json) (k : string) : option (list (string * json)) := match jget j k with Some (JObj l) => Some l | _ => None end.
  Definition expr_of (j : json) : option expr := obind (as_str j) parse.
  (** json_to_storage_type, lines 1151-1174 *)
  Definition storage_of (j : json) : option storage :=
    match jget j "value" with
    | None => Some (a_storage attrs0)
    | Some v =>
        let? value := as_str v in
        let? size := match jget j "allocation_size" with Some _ => option_map Some (eget j "allocation_size") | None => Some None end in
        let? al := obind (nget j "allocation") bool_of_num in
        let? de := obind (nget j "deallocation") bool_of_num in
        let? arg := match jget j "args" with
                    | Some _ => match aget j "args" with Some (a :: _) => option_map Some (expr_of a) | Some [] => Some None | None => None end
                    | None => Some None end in
        Some {| s_value := value; s_size := size; s_arg1 := arg; s_alloc := al; s_dealloc := de |}
    end.
  Definition attrs_of (j : json) : option attrs :=
    let? s := obind (jget j "storage_type") storage_of in
    let? i := sget j "initializer" in
    let? al := nget j "alignment" in
    Some {| a_storage := s; a_align := Z.to_N al; a_init := i |}.
  (** json_to_type, lines 979-1103 *)
  Fixpoint type_of (n : nat) (j : json) : option ty :=
    match n with
    | O => None
    | S n =>
        let? k := sget j "type" in
        if String.eqb k "scalar" then
          let? p := obind (nget j "primitive_type") prim_of_num in let? a := attrs_of j in Some (TScalar a p)
        else if String.eqb k "array" then
          let? e := obind (jget j "element_type") (type_of n) in let? m := eget j "num_elements" in let? a := attrs_of j in Some (TArray a e m)
        else if String.eqb k "pointer" then
          let? t := match jget j "pointee_type" with Some t => option_map Some (type_of n t) | None => Some None end in let? a := attrs_of j in Some (TPointer a t)
        else if String.eqb k "structure" then
          let? m := sget j "name" in let? a := attrs_of j in Some (TStruct a m)
        else if String.eqb k "function" then
          let? r := obind (jget j "return_type") (type_of n) in let? ps := obind (aget j "params") (omap (type_of n)) in let? v := bget j "is_var_arg" in let? a := attrs_of j in Some (TFunction a r v ps)
        else if String.eqb k "reference" then
          let? r := obind (jget j "reference_type") (type_of n) in Some (TReference attrs0 r)
        else if String.eqb k "tensor" then
          let? e := obind (jget j "element_type") (type_of n) in
          let? sh := obind (aget j "shape") (omap expr_of) in let? st := obind (aget j "strides") (omap expr_of) in let? o := eget j "offset" in let? a := attrs_of j in
          match e with TScalar _ p => Some (TTensor a p sh st o) | _ => None end
        else None
    end.
  (** json_to_debug_info, lines 1105-1130 *)
  Definition dbg_of (j : json) : option dbg :=
    let? h := bget j "has" in
    if h then
      let? f := sget j "filename" in let? u := sget j "function" in let? a := nget j "start_line" in let? b := nget j "start_column" in let? c := nget j "end_line" in let? d := nget j "end_column" in
      Some {| d_has := true; d_file := f; d_func := u; d_l1 := a; d_c1 := b; d_l2 := c; d_c2 := d |}
    else Some dbg0.
  Definition elem_of (j : json) : option elem := let? i := nget j "element_id" in let? d := obind (jget j "debug_info") dbg_of in Some (i, d).
  (** fields that are not the library node's own *)
  Definition own (k : string) : bool := negb (mem k ["element_id"; "debug_info"; "type"; "implementation_type"; "code"]).
  (** json_to_dataflow, lines 595-698 (nodes).  A library node's own fields are
      taken over by its serializer. *)
  Definition dnode_of (d : nat) (j : json) : option (elem * dnode) :=
    let? k := sget j "type" in
    let? e := elem_of j in
    if String.eqb k "tasklet" then
      let? c := nget j "code" in let? i := obind (aget j "inputs") (omap as_str) in let? o := sget j "output" in Some (e, DTasklet c i o)
    else if String.eqb k "library_node" then
      let? c := sget j "code" in let? im := sget j "implementation_type" in
      match j with JObj l => Some (e, DLib c im (filter (fun kv => own (fst kv)) l)) | _ => None end
    else if String.eqb k "access_node" then let? x := sget j "data" in Some (e, DAccess x)
    else if String.eqb k "constant_node" then let? x := sget j "data" in let? t := obind (jget j "data_type") (type_of d) in Some (e, DConst x t)
    else None.
  (** nodes_map: the first node inserted under an id stays (lines 598-656) *)
  Fixpoint find_id (i : Z) (nodes : list (elem * dnode)) : option nat :=
    match nodes with [] => None | n :: r => if fst (fst n) =? i then Some O else option_map S (find_id i r) end.
  (** lines 658-697 *)
  Definition edge_of (d : nat) (nodes : list (elem * dnode)) (j : json) : option dedge :=
    let? e := elem_of j in
    let? s := obind (nget j "src") (fun i => find_id i nodes) in let? t := obind (nget j "dst") (fun i => find_id i nodes) in
    let? sc := sget j "src_conn" in let? dc := sget j "dst_conn" in
    let? b := obind (jget j "base_type") (type_of d) in
    let? su := obind (aget j "subset") (omap expr_of) in
    Some {| g_elem := e; g_src := s; g_dst := t; g_sconn := sc; g_dconn := dc; g_subset := su; g_type := b |}.
  Definition dataflow_of (d : nat) (j : json) : option (list (elem * dnode) * list dedge) :=
    let? k := sget j "type" in
    if String.eqb k "dataflow" then
      let? ns := obind (aget j "nodes") (omap (dnode_of d)) in let? es := obind (aget j "edges") (omap (edge_of d ns)) in Some (ns, es)
    else None.
  (** json_to_schedule_type, lines 1132-1149 *)
  Definition sched_of (j : json) : option sched :=
    let? v := sget j "value" in
    let? ps := oget j "properties" in
    let? qs := omap (fun kv => let? s := as_str (snd kv) in Some (fst kv, s)) ps in
    let? c := match jget j "category" with Some c => as_num c | None => Some 0 end in
    Some {| h_value := v; h_cat := c; h_props := qs |}.
  (** unordered_map::insert keeps the first (lines 726-734) *)
  Definition asg_of (j : json) : option (string * expr) := let? x := sget j "symbol" in let? e := eget j "expression" in Some (x, e).
  Fixpoint keep_first {A} (seen : list string) (l : list (string * A)) : list (string * A) :=
    match l with [] => [] | (x, a) :: r => if mem x seen then keep_first seen r else (x, a) :: keep_first (x :: seen) r end.
  Definition trans_of (j : json) : option (elem * asgs) :=
    let? e := elem_of j in let? a := obind (aget j "assignments") (omap asg_of) in Some (e, keep_first [] a).
  (** json_to_sequence and the node functions, lines 700-977 *)
  Fixpoint seq_of (n : nat) (j : json) : option cseq :=
    match n with
    | O => None
    | S n =>
        let? k := sget j "type" in
        if String.eqb k "sequence" then
          let? e := elem_of j in
          let? cs := aget j "children" in
          let? ts := aget j "transitions" in
          let? ks := (fix go cs ts := match cs, ts with
                                     | [], [] => Some KNil
                                     | c :: cs, t :: ts => let? ta := trans_of t in let? x := node_of n c in let? r := go cs ts in Some (KCons x (fst ta) (snd ta) r)
                                     | _, _ => None
                                     end) cs ts in
          Some (CSeq e ks)
        else None
    end
  with node_of (n : nat) (j : json) : option cnode :=
    match n with
    | O => None
    | S n =>
        let? k := sget j "type" in
        if String.eqb k "block" then
          let? e := elem_of j in let? d := obind (jget j "dataflow") (dataflow_of n) in Some (XBlock e (fst d) (snd d))
        else if String.eqb k "for" then
          let? e := elem_of j in let? i := sget j "indvar" in let? a := eget j "init" in let? u := eget j "update" in let? c := cget j "condition" in let? q := obind (jget j "root") (seq_of n) in Some (XFor e i a c u q)
        else if String.eqb k "if_else" then
          let? e := elem_of j in
          let? bs := obind (aget j "branches") (fix go l := match l with
                                                 | [] => Some QNil
                                                 | b :: r => let? c := cget b "condition" in let? q := obind (jget b "root") (seq_of n) in let? t := go r in Some (QCons c q t)
                                                 end) in
          Some (XIf e bs)
        else if String.eqb k "while" then let? e := elem_of j in let? q := obind (jget j "root") (seq_of n) in Some (XWhile e q)
        else if String.eqb k "break" then let? e := elem_of j in Some (XBreak e)
        else if String.eqb k "continue" then let? e := elem_of j in Some (XContinue e)
        else if String.eqb k "return" then
          let? e := elem_of j in let? d := sget j "data" in
          let? t := match jget j "data_type" with Some t => option_map Some (type_of n t) | None => Some None end in Some (XReturn e d t)
        else if String.eqb k "map" then
          let? e := elem_of j in let? h := obind (jget j "schedule_type") sched_of in let? i := sget j "indvar" in let? a := eget j "init" in let? u := eget j "update" in let? c := cget j "condition" in let? q := obind (jget j "root") (seq_of n) in Some (XMap e i a c u h q)
        else if String.eqb k "sequence" then let? q := seq_of n j in Some (XSeq q)
        else None
    end.

  (** depth of a JSON value: enough fuel for the recursive readers *)
  Fixpoint jdepth (j : json) : nat :=
    match j with
    | JArr l => S (fold_right (fun a m => Nat.max (jdepth a) m) O l)
    | JObj l => S (fold_right (fun kv m => Nat.max (jdepth (snd kv)) m) O l)
    | _ => 1%nat
    end.
  (** Sequence children count one level of their own (node_of then seq_of) *)
  Definition fuel (j : json) : nat := (2 * jdepth j)%nat.

  (** FunctionBuilder::add_container / add_external / add_structure
      (function_builder.cpp:64-111, 187-199) on the containers, arguments,
      externals, assumptions; [None]: exception.  [legal]: check_name *)
  Variable legal : string -> bool.
  Definition is_tensor (t : ty) : bool := match t with TTensor _ _ _ _ _ => true | _ => false end.
  Record build := { b_cont : list (string * ty); b_args : list string; b_exts : list (string * Z); b_assumed : list string }.
  Definition add_container (b : build) (x : string) (t : ty) (arg ext : bool) : option build :=
    if is_tensor t || (arg && ext) || negb (legal x) || mem x (map fst (b_cont b)) then None
    else Some {| b_cont := b_cont b ++ [(x, t)]; b_args := b_args b ++ (if arg then [x] else []); b_exts := b_exts b ++ (if ext then [(x, 0)] else []);
                 b_assumed := b_assumed b ++ (if is_symbol t then [x] else []) |}.
  Definition add_external (b : build) (x : string) (t : ty) (k : Z) : option build :=
    if negb (legal x) || mem x (map fst (b_cont b)) then None
    else Some {| b_cont := b_cont b ++ [(x, t)]; b_args := b_args b; b_exts := b_exts b ++ [(x, k)]; b_assumed := b_assumed b |}.
  Definition build0 : build := {| b_cont := []; b_args := []; b_exts := []; b_assumed := [] |}.

  (** lines 565-579 *)
  Definition struct_of (d : nat) (j : json) : option (string * (list ty * bool)) :=
    let? m := sget j "name" in let? pk := bget j "is_packed" in let? ts := obind (aget j "members") (omap (type_of d)) in Some (m, (ts, pk)).
  Fixpoint ofold {A B} (f : A -> B -> option A) (l : list B) (a : A) : option A :=
    match l with [] => Some a | b :: r => let? a' := f a b in ofold f r a' end.
  Fixpoint distinct (l : list string) : bool := match l with [] => true | x :: r => negb (mem x r) && distinct r end.
  (** deserialize, lines 486-563.  (The builder's own assumptions for the device
      symbols of a GPU function are not modelled.) *)
  Definition deserialize (j : json) : option program :=
    let n := fuel j in
    let? name := sget j "name" in let? ft := sget j "type" in let? cnt := nget j "element_counter" in
    let? ret := match jget j "return_type" with Some t => type_of n t | None => Some (TScalar attrs0 Void) end in
    let? structs := obind (aget j "structures") (omap (struct_of n)) in
    if negb (distinct (map fst structs)) then None else
    let? conts := oget j "containers" in
    let? exts := aget j "externals" in
    let? b1 := ofold (fun b x => let? nm := sget x "name" in let? k := nget x "linkage_type" in let? t := obind (jlookup conts nm) (type_of n) in add_external b nm t k) exts build0 in
    let? args := aget j "arguments" in
    let? b2 := ofold (fun b x => let? nm := as_str x in let? t := obind (jlookup conts nm) (type_of n) in add_container b nm t true false) args b1 in
    let? b3 := ofold (fun b kv => if mem (fst kv) (b_args b) || mem (fst kv) (map fst (b_exts b)) then Some b else let? t := type_of n (snd kv) in add_container b (fst kv) t false false) conts b2 in
    let? root := obind (jget j "root") (seq_of n) in
    let? meta := oget j "metadata" in
    let? ms := omap (fun kv => let? s := as_str (snd kv) in Some (fst kv, s)) meta in
    Some {| p_name := name; p_counter := cnt; p_type := ft; p_ret := ret; p_structs := structs; p_containers := b_cont b3; p_args := b_args b3; p_exts := b_exts b3;
            p_meta := ms; p_assumed := b_assumed b3; p_root := root |}.
End Serial.
