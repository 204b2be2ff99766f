(** Model of arg-capture-io/src/arg_capture_io.cpp, arg_capture_io.h and
    rtl/src/capture.cpp.

    Simplifications: a path is a directory (list of components) and a file name;
    the target name contains no '/'. Directory creation and file writes succeed
    (a failed write throws out of the program, capture.cpp:88-90, so the history
    ends there). JSON text is modelled by the JSON value. *)
From Coq Require Import DecimalString DecimalN DecimalZ.
From Verif Require Export Base64 Json.
Local Open Scope string_scope.
Local Open Scope Z_scope.

Definition path : Type := (list string * string)%type.
Definition path_eqb (p q : path) : bool :=
  (if list_eq_dec string_dec (fst p) (fst q) then true else false) && String.eqb (snd p) (snd q).

(** std::to_string *)
Definition to_string_u (n : N) : string := NilZero.string_of_uint (N.to_uint n).
Definition to_string_z (z : Z) : string := NilZero.string_of_int (Z.to_int z).

(** ArgCapture, arg_capture_io.h:23-55 *)
Record cap := { c_idx : Z; c_after : bool; c_dims : list Z; c_prim : Z; c_ext : option path; c_data : option (list Z) }.
Definition new_cap idx after prim dims := {| c_idx := idx; c_after := after; c_dims := dims; c_prim := prim; c_ext := None; c_data := None |}.

(** std::string <-> characters *)
Definition str_of (l : list Z) : string :=
  fold_right (fun z s => String (Ascii.ascii_of_N (Z.to_N z)) s) "" l.
Fixpoint chars_of (s : string) : list Z :=
  match s with "" => [] | String a r => Z.of_N (Ascii.N_of_ascii a) :: chars_of r end.

(** ArgCapture::serialize_into, arg_capture_io.cpp:35-56 *)
Definition serialize_cap (c : cap) : json :=
  JObj (app [("arg_idx", JNum (c_idx c)); ("after", JBool (c_after c)); ("primitive_type", JNum (c_prim c));
         ("dims", JArr (map JNum (c_dims c)))]
        match c_data c with
        | Some d => [("data", JStr (str_of (base64_encode d)))]
        | None => match c_ext c with Some p => [("ext_file", JStr (snd p))] | None => [] end
        end).

(** std::unordered_map<pair<int32_t,bool>, ArgCapture>: the model keeps a list;
    iteration order is a parameter where it matters *)
Definition key : Type := (Z * bool)%type.
Definition key_eqb (a b : key) : bool := (fst a =? fst b) && Bool.eqb (snd a) (snd b).
Definition cmap : Type := list (key * cap).
Fixpoint cm_get (m : cmap) (k : key) : option cap :=
  match m with [] => None | (k', c) :: r => if key_eqb k k' then Some c else cm_get r k end.
Definition cm_erase (m : cmap) (k : key) : cmap := filter (fun e => negb (key_eqb k (fst e))) m.
(** emplace: does nothing if the key exists *)
Definition cm_emplace (m : cmap) (k : key) (c : cap) : cmap :=
  match cm_get m k with Some _ => m | None => (k, c) :: m end.
(** operator[]= *)
Definition cm_set (m : cmap) (k : key) (c : cap) : cmap := (k, c) :: cm_erase m k.

(** ArgCapture::parse_from, arg_capture_io.cpp:58-80 ([base_path / filename]) *)
Definition parse_cap (dir : list string) (j : json) : option cap :=
  let? idx := obind (jget j "arg_idx") as_num in
  let? aft := obind (jget j "after") as_bool in
  let? prim := obind (jget j "primitive_type") as_num in
  let? dims := obind (obind (jget j "dims") as_arr) (omap as_num) in
  if jcontains j "data" then
    let? s := obind (jget j "data") as_str in
    let? d := base64_decode (chars_of s) in
    Some {| c_idx := idx; c_after := aft; c_dims := dims; c_prim := prim; c_ext := None; c_data := Some d |}
  else if jcontains j "ext_file" then
    let? f := obind (jget j "ext_file") as_str in
    Some {| c_idx := idx; c_after := aft; c_dims := dims; c_prim := prim; c_ext := Some (dir, f); c_data := None |}
  else Some (new_cap idx aft prim dims).
Definition parse_from (dir : list string) (m : cmap) (j : json) : option cmap :=
  let? c := parse_cap dir j in Some (cm_emplace m (c_idx c, c_after c) c).

(** ArgCaptureIO, arg_capture_io.h:58-65 *)
Record io := { i_name : string; i_inv : list (string * Z); i_caps : list (string * cmap) }.
Fixpoint sget {A} (m : list (string * A)) (k : string) : option A :=
  match m with [] => None | (k', c) :: r => if String.eqb k k' then Some c else sget r k end.
Definition sset {A} (m : list (string * A)) (k : string) (c : A) : list (string * A) :=
  (k, c) :: filter (fun e => negb (String.eqb k (fst e))) m.
Definition new_io name := {| i_name := name; i_inv := []; i_caps := [] |}.
(** current_captures_[element_id] (creates an empty map) *)
Definition caps_of (o : io) (e : string) : cmap := match sget (i_caps o) e with Some m => m | None => [] end.
Definition with_caps (o : io) (e : string) (m : cmap) : io :=
  {| i_name := i_name o; i_inv := i_inv o; i_caps := sset (i_caps o) e m |}.

(** invocation, arg_capture_io.cpp:86-90 (uint32_t counter) *)
Definition invocation (o : io) (e : string) : io :=
  {| i_name := i_name o; i_caps := i_caps o;
     i_inv := sset (i_inv o) e (match sget (i_inv o) e with Some n => (n + 1) mod 2 ^ 32 | None => 0 end) |}.
(** clear, arg_capture_io.cpp:92 *)
Definition clear (o : io) : io := {| i_name := i_name o; i_inv := i_inv o; i_caps := [] |}.

(** The memory a [const void*] points to. *)
Definition mem := Z -> Z.
Definition bytes (m : mem) (n : Z) : list Z := map (fun i => m (Z.of_nat i)) (seq 0 (Z.to_nat n)).
(** std::accumulate(dims, 1, multiplies<size_t>), arg_capture_io.cpp:132: the
    accumulator has type int, so each product is reduced to 32 bits (signed). *)
Definition to_int32 (z : Z) : Z := (z + 2 ^ 31) mod 2 ^ 32 - 2 ^ 31.
Definition size_int (dims : list Z) : Z := fold_left (fun acc d => to_int32 ((acc mod 2 ^ 64 * d) mod 2 ^ 64)) dims 1.
(** std::accumulate(dims, size_t{1}, ...), arg_capture_io.cpp:179 *)
Definition size_sz (dims : list Z) : Z := fold_left (fun acc d => (acc * d) mod 2 ^ 64) dims 1.

(** capture_inline, arg_capture_io.cpp:131-160. A negative size makes the vector
    constructor throw ([None]). *)
Definition capture_inline (o : io) (c : cap) (d : mem) (e : string) : option io :=
  let size := size_int (c_dims c) in
  if size <? 0 then None
  else let k := (c_idx c, c_after c) in
       match cm_get (caps_of o e) k with
       | Some c' => Some (with_caps o e (cm_set (caps_of o e) k
           {| c_idx := c_idx c'; c_after := c_after c'; c_dims := c_dims c'; c_prim := c_prim c';
              c_ext := c_ext c'; c_data := Some (bytes d size) |}))
       | None => None
       end.
(** create_and_capture_inline, arg_capture_io.cpp:99-110 *)
Definition create_and_capture_inline (o : io) (idx : Z) (aft : bool) (prim : Z) (dims : list Z) (d : mem) (e : string) : option io :=
  let m := cm_emplace (cm_erase (caps_of o e) (idx, aft)) (idx, aft) (new_cap idx aft prim dims) in
  match cm_get m (idx, aft) with
  | Some c => capture_inline (with_caps o e m) c d e
  | None => None
  end.

(** file system *)
Inductive content := FRaw (l : list Z) | FJson (j : json).
Definition fs : Type := path -> option content.
Definition fwrite (f : fs) (p : path) (c : content) : fs := fun q => if path_eqb q p then Some c else f q.

(** create_and_capture_to_file / write_capture_to_file / write_data_to_raw_file,
    arg_capture_io.cpp:112-129, 162-188, 190-243 *)
Definition create_and_capture_to_file (o : io) (f : fs) (idx : Z) (aft : bool) (prim : Z) (dims : list Z) (p : path) (d : mem) (e : string) : io * fs :=
  let m := cm_erase (caps_of o e) (idx, aft) in
  let c := new_cap idx aft prim dims in
  (with_caps o e (cm_set m (idx, aft)
     {| c_idx := idx; c_after := aft; c_dims := dims; c_prim := prim; c_ext := Some p; c_data := None |}),
   fwrite f p (FRaw (bytes d (size_sz dims)))).

Definition INDEX_FORMAT_VERSION : Z := 1.
(** write_index, arg_capture_io.cpp:255-291; [ord] is the iteration order of the
    unordered maps *)
Definition index_file (name : string) (inv : Z) (e : string) : string :=
  name ++ "_inv" ++ to_string_u (Z.to_N inv) ++ "_" ++ e ++ ".index.json".
Definition index_json (ord : cmap -> cmap) (name : string) (inv : Z) (e : string) (m : cmap) : json :=
  JObj [("format", JNum INDEX_FORMAT_VERSION); ("target", JStr name); ("invocation", JNum inv); ("element_id", JStr e);
        ("captures", JArr (map (fun kc => serialize_cap (snd kc)) (ord m)))].
Fixpoint write_regions (ord : cmap -> cmap) (o : io) (dir : list string) (l : list (string * cmap)) (f : fs) : option fs :=
  match l with
  | [] => Some f
  | (e, m) :: r =>
      match sget (i_inv o) e with
      | None => None (* std::out_of_range *)
      | Some k => write_regions ord o dir r (fwrite f (dir, index_file (i_name o) k e) (FJson (index_json ord (i_name o) k e m)))
      end
  end.
Definition write_index (ord : cmap -> cmap) (o : io) (dir : list string) (f : fs) : option fs :=
  write_regions ord o dir (i_caps o) f.

(** from_index, arg_capture_io.h:110-141 *)
Fixpoint parse_all (dir : list string) (m : cmap) (l : list json) : option cmap :=
  match l with [] => Some m | j :: r => let? m' := parse_from dir m j in parse_all dir m' r end.
Definition from_index (f : fs) (p : path) : option io :=
  match f p with
  | Some (FJson j) =>
      let? v := obind (jget j "format") as_num in
      if negb (v =? INDEX_FORMAT_VERSION) then None
      else let? name := obind (jget j "target") as_str in
           let? inv := obind (jget j "invocation") as_num in
           let? e := obind (jget j "element_id") as_str in
           let? arr := obind (jget j "captures") as_arr in
           let? m := parse_all (fst p) [] arr in
           Some {| i_name := name; i_inv := [(e, inv)]; i_caps := [(e, m)] |}
  | _ => None
  end.

(* ---------- rtl/src/capture.cpp ---------- *)
(** DaisyRtlCapture: an io, the chosen invocation and the output directory.
    ALL_INVOCATIONS = (uint32_t)-1, capture.cpp:17 *)
Definition ALL_INVOCATIONS : Z := 2 ^ 32 - 1.
(** enter, capture.cpp:71-78 *)
Definition enter (o : io) (which : Z) (e : string) : io * bool :=
  let o' := invocation (clear o) e in
  (o', (which =? ALL_INVOCATIONS) || match sget (i_inv o') e with Some n => n =? which | None => false end).
(** generate_arg_capture_output_filename, capture.cpp:157-162 *)
Definition arg_file (name : string) (inv idx : Z) (aft : bool) (e : string) : string :=
  name ++ "_inv" ++ to_string_u (Z.to_N inv) ++ "_arg" ++ to_string_z idx ++ "_" ++ (if aft then "out" else "in") ++ "_" ++ e ++ ".bin".
(** capture_raw, capture.cpp:80-91: small data is captured inline and then, for
    lack of a return, also to a file *)
Definition capture_raw (dir : list string) (o : io) (f : fs) (idx : Z) (d : mem) (size : Z) (prim : Z) (aft : bool) (e : string) : option (io * fs) :=
  let? o1 := (if size <=? 32 then create_and_capture_inline o idx aft prim [size] d e else Some o) in
  match sget (i_inv o1) e with
  | None => None
  | Some k => Some (create_and_capture_to_file o1 f idx aft prim [size] (dir, arg_file (i_name o1) k idx aft e) d e)
  end.
(** exit, capture.cpp:150-155 *)
Definition exit_ (ord : cmap -> cmap) (dir : list string) (o : io) (f : fs) : option fs :=
  match i_caps o with [] => Some f | _ => write_index ord o dir f end.
(** __daisy_capture_init, capture.cpp:169-197: [None] is the null context *)
Definition strategy (env : option string) : option Z :=
  match env with
  | Some s => if String.eqb s "all" then Some ALL_INVOCATIONS else if String.eqb s "never" then None else Some 0
  | None => Some 0
  end.

(** One execution of an instrumented region as generated by
    sdfg/src/codegen/instrumentation/arg_capture_plan.cpp:36-64, 105-131: enter; if
    enabled capture the inputs; the region; if enabled capture the outputs; end.
    [x_in]/[x_out] list the captured arguments with the memory they point to before
    and after the region. *)
Record arg := { g_idx : Z; g_size : Z; g_prim : Z; g_mem : mem }.
Record exec := { x_elem : N; x_in : list arg; x_out : list arg }.
Fixpoint captures (dir : list string) (aft : bool) (e : string) (l : list arg) (o : io) (f : fs) : option (io * fs) :=
  match l with
  | [] => Some (o, f)
  | g :: r => let? of' := capture_raw dir o f (g_idx g) (g_mem g) (g_size g) (g_prim g) aft e in
              captures dir aft e r (fst of') (snd of')
  end.
Definition run_exec (ord : cmap -> cmap) (which : Z) (dir : list string) (x : exec) (o : io) (f : fs) : option (io * fs) :=
  let e := to_string_u (x_elem x) in
  let '(o1, en) := enter o which e in
  let? of2 := (if en then captures dir false e (x_in x) o1 f else Some (o1, f)) in
  let? of3 := (if en then captures dir true e (x_out x) (fst of2) (snd of2) else Some of2) in
  let? f' := exit_ ord dir (fst of3) (snd of3) in
  Some (fst of3, f').
Fixpoint run_execs (ord : cmap -> cmap) (which : Z) (dir : list string) (h : list exec) (o : io) (f : fs) : option (io * fs) :=
  match h with
  | [] => Some (o, f)
  | x :: r => let? of' := run_exec ord which dir x o f in run_execs ord which dir r (fst of') (snd of')
  end.
