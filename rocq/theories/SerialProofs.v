(** Round trip of the JSON serialization. *)
From Coq Require Import Lia.
From Verif Require Import Sym SymFacts SymFuns Json Types Serial.
Local Open Scope string_scope.
Local Open Scope Z_scope.

Lemma depth_obj k v l : In (k, v) l -> (jdepth v < jdepth (JObj l))%nat.
Proof.
  cbn [jdepth]. induction l as [|[k' v'] l IH]; intros H; [destruct H|]. cbn [fold_right snd]. destruct H as [H|H]; [injection H as -> ->; lia|]. specialize (IH H). lia.
Qed.
Lemma depth_arr v l : In v l -> (jdepth v < jdepth (JArr l))%nat.
Proof. cbn [jdepth]. induction l as [|v' l IH]; intros H; [destruct H|]. cbn [fold_right]. destruct H as [->|H]; [lia|]. specialize (IH H). lia. Qed.

Lemma csubs_unused c x r : cuses c x = false -> csubs c x r = c.
Proof.
  induction c using cond_ind'; cbn [cuses csubs]; intros H1; rewrite ?orb_false_iff in H1; auto;
    try (destruct H1; rewrite !subs_unused; auto; fail).
  - f_equal. induction l as [|a l IHl]; cbn [map]; auto. inversion H; subst. cbn [existsb] in H1. apply orb_false_iff in H1 as [H5 H6]. rewrite H3, IHl; auto.
  - f_equal. induction l as [|a l IHl]; cbn [map]; auto. inversion H; subst. cbn [existsb] in H1. apply orb_false_iff in H1 as [H5 H6]. rewrite H3, IHl; auto.
  - rewrite IHc; auto.
Qed.
Lemma prim_round p : prim_of_num (prim_num p) = Some p.
Proof. destruct p; reflexivity. Qed.
Lemma bool_round b : bool_of_num (num_of_bool b) = Some b.
Proof. destruct b; reflexivity. Qed.
Lemma omap_all {A B} (f : B -> option A) (g : A -> B) l : (forall x, In x l -> f (g x) = Some x) -> omap f (map g l) = Some l.
Proof. intros H. rewrite (omap_map f g (fun x => x) l); [rewrite map_id; auto|auto]. Qed.

Scheme cnode_mut := Induction for cnode Sort Prop with cseq_mut := Induction for cseq Sort Prop with ckids_mut := Induction for ckids Sort Prop with cbrs_mut := Induction for cbrs Sort Prop.
Combined Scheme cnode_mutind from cnode_mut, cseq_mut, ckids_mut, cbrs_mut.

Section Round.
  Variables (print : expr -> string) (printc : cond -> string) (base : string -> option expr) (basec : string -> option cond) (legal : string -> bool).
  (** printing then parsing gives the expression back (SymEngine's part), and it
      does not mention the names symbolic::parse rewrites *)
  Definition okE (e : expr) : Prop := base (print e) = Some e /\ uses e "true" = false /\ uses e "false" = false.
  Definition okC (c : cond) : Prop := basec (printc c) = Some c /\ cuses c "true" = false /\ cuses c "false" = false.
  Definition okS (s : storage) : Prop := (forall e, s_size s = Some e -> okE e) /\ (forall e, s_arg1 s = Some e -> okE e).
  Definition okA (a : attrs) : Prop := okS (a_storage a).
  (** a reference only carries default attributes *)
  Fixpoint okT (t : ty) : Prop :=
    match t with
    | TScalar a _ | TStruct a _ => okA a
    | TArray a e n => okA a /\ okE n /\ okT e
    | TPointer a o => okA a /\ match o with Some t => okT t | None => True end
    | TReference a r => a = attrs0 /\ okT r
    | TFunction a r _ ps => okA a /\ okT r /\ fold_right (fun t P => okT t /\ P) True ps
    | TTensor a _ sh st o => okA a /\ Forall okE sh /\ Forall okE st /\ okE o
    end.
  Definition okD (d : dbg) : Prop := d_has d = false -> d = dbg0.
  Definition okL (e : elem) : Prop := okD (snd e).
  Definition okN (n : elem * dnode) : Prop :=
    okL (fst n) /\ match snd n with DConst _ t => okT t | DLib _ _ f => forallb (fun kv => own (fst kv)) f = true | _ => True end.
  Definition okG (nodes : list (elem * dnode)) (g : dedge) : Prop :=
    okL (g_elem g) /\ (g_src g < List.length nodes)%nat /\ (g_dst g < List.length nodes)%nat /\ Forall okE (g_subset g) /\ okT (g_type g).
  Definition okF (a : asgs) : Prop := NoDup (map fst a) /\ Forall (fun xe => okE (snd xe)) a.
  Fixpoint okX (n : cnode) : Prop :=
    match n with
    | XBlock e ns es => okL e /\ Forall okN ns /\ NoDup (map (fun n => fst (fst n)) ns) /\ Forall (okG ns) es
    | XSeq q => okQ q
    | XIf e bs => okL e /\ okBs bs
    | XWhile e q => okL e /\ okQ q
    | XFor e _ a c u q => okL e /\ okE a /\ okC c /\ okE u /\ okQ q
    | XMap e _ a c u _ q => okL e /\ okE a /\ okC c /\ okE u /\ okQ q
    | XBreak e | XContinue e => okL e
    | XReturn e _ t => okL e /\ match t with Some t => okT t | None => True end
    end
  with okQ (q : cseq) : Prop := match q with CSeq e k => okL e /\ okK k end
  with okK (k : ckids) : Prop := match k with KNil => True | KCons n te a k => okX n /\ okL te /\ okF a /\ okK k end
  with okBs (b : cbrs) : Prop := match b with QNil => True | QCons c q b => okC c /\ okQ q /\ okBs b end.

  Local Notation parse := (parse base).
  Local Notation parsec := (parsec basec).
  Local Notation type_json := (type_json print).
  Local Notation type_of := (type_of base).

  Lemma parse_round e : okE e -> parse (print e) = Some e.
  Proof. intros (H & T & F). unfold Serial.parse. rewrite H. cbn [option_map]. rewrite (subs_unused e "true"), (subs_unused e "false"); auto. Qed.
  Lemma parsec_round c : okC c -> parsec (printc c) = Some c.
  Proof. intros (H & T & F). unfold Serial.parsec. rewrite H. cbn [option_map]. rewrite (csubs_unused c "true"), (csubs_unused c "false"); auto. Qed.
  Lemma exprs_round l : Forall okE l -> omap (expr_of base) (map (fun e => JStr (print e)) l) = Some l.
  Proof. intros F. apply omap_all. intros x Hx. rewrite Forall_forall in F. exact (parse_round x (F x Hx)). Qed.
  Lemma storage_round s : okS s -> storage_of base (storage_json print s) = Some s.
  Proof.
    destruct s as [v sz ar al de]. intros [H1 H2]. cbn [s_size s_arg1] in *. unfold storage_json. cbn [s_size s_arg1 s_value s_alloc s_dealloc].
    destruct sz as [e|], ar as [f|]; cbn [app]; unfold storage_of, eget, sget, nget, aget; cbn [jget jlookup String.eqb Ascii.eqb Bool.eqb obind as_str as_num as_arr option_map expr_of];
      rewrite !bool_round; cbn [obind]; unfold expr_of; cbn [obind as_str]; rewrite ?(parse_round e (H1 e eq_refl)), ?(parse_round f (H2 f eq_refl)); reflexivity.
  Qed.
  (** the attributes, wherever they are in the object *)
  Lemma attrs_round a l : okA a -> jlookup l "storage_type" = Some (storage_json print (a_storage a)) -> jlookup l "initializer" = Some (JStr (a_init a)) ->
    jlookup l "alignment" = Some (JNum (Z.of_N (a_align a))) -> attrs_of base (JObj l) = Some a.
  Proof.
    intros O H1 H2 H3. unfold attrs_of, sget, nget. cbn [jget]. rewrite H1, H2, H3. cbn [obind as_str as_num]. rewrite (storage_round _ O). cbn [obind]. rewrite N2Z.id. destruct a; reflexivity.
  Qed.
  Ltac look := cbn [jget jlookup String.eqb Ascii.eqb Bool.eqb obind as_str as_num as_arr as_bool option_map app].
  Ltac deep k := match goal with L : (jdepth (JObj ?l) <= _)%nat |- (jdepth ?v <= _)%nat =>
    let H := fresh in assert (H : In (k, v) l) by (cbn [In app]; repeat (first [left; reflexivity | right])); pose proof (depth_obj _ _ _ H); lia end.
  Lemma type_round : forall t n, okT t -> (jdepth (type_json t) <= n)%nat -> type_of n (type_json t) = Some t.
  Proof.
    fix IH 1. intros t n O L. destruct n as [|n]; [exfalso; destruct t; cbn [Serial.type_json jdepth] in L; lia|].
    destruct t as [a p|a e m|a nm|a o|a r|a r va ps|a p sh st o]; cbn [okT] in O; cbn [Serial.type_json] in L |- *; cbn [Serial.type_of]; unfold sget, nget, eget, aget, bget, attrs_json in *.
    - look. rewrite prim_round. cbn [obind]. rewrite (attrs_round a); auto.
    - destruct O as (O1 & O2 & O3). look. rewrite (IH e n); auto; [|deep "element_type"].
      cbn [obind]. unfold sget. look. rewrite (parse_round m O2). cbn [obind]. rewrite (attrs_round a); auto.
    - look. rewrite (attrs_round a); auto.
    - destruct O as (O1 & O2). destruct o as [t|]; look.
      + rewrite (IH t n); auto; [|deep "pointee_type"].
        look. rewrite (attrs_round a); auto.
      + rewrite (attrs_round a); auto.
    - destruct O as (-> & O2). look. rewrite (IH r n); auto. deep "reference_type".
    - destruct O as (O1 & O2 & O3). look. rewrite (IH r n); auto; [|deep "return_type"].
      cbn [obind]. assert (D: (jdepth (JArr (map type_json ps)) <= n)%nat).
      { deep "params". }
      assert (G: omap (type_of n) (map type_json ps) = Some ps).
      { clear L O1 O2. cbn [jdepth] in D. induction ps as [|t ps IHp]; [reflexivity|]. cbn [map omap fold_right] in *. destruct O3 as [O3 O4]. rewrite (IH t n O3) by lia. cbn [obind]. rewrite IHp; auto. lia. }
      rewrite G. look. rewrite (attrs_round a); auto.
    - destruct O as (O1 & O2 & O3 & O4). look.
      assert (E: type_of n (JObj (("type", JStr "scalar") :: ("primitive_type", JNum (prim_num p)) :: attrs_json print attrs0)) = Some (TScalar attrs0 p)).
      { destruct n as [|n]; [exfalso; cbn [jdepth fold_right snd attrs_json] in L; lia|]. cbn [Serial.type_of]. unfold sget, nget, attrs_json. look. rewrite prim_round. cbn [obind]. rewrite (attrs_round attrs0); auto. split; cbn; discriminate. }
      unfold attrs_json in E. rewrite E. cbn [obind]. rewrite (exprs_round sh O2), (exprs_round st O3). cbn [obind]. unfold sget. look. rewrite (parse_round o O4). cbn [obind]. rewrite (attrs_round a); auto.
  Qed.

  Lemma dbg_round d : okD d -> dbg_of (dbg_json d) = Some d.
  Proof. destruct d as [[] f u a b c e]; intros H; [reflexivity|]. rewrite (H eq_refl). reflexivity. Qed.
  Lemma elem_round e l : okL e -> jlookup l "element_id" = Some (JNum (fst e)) -> jlookup l "debug_info" = Some (dbg_json (snd e)) -> elem_of (JObj l) = Some e.
  Proof. intros O H1 H2. unfold elem_of, nget. cbn [jget]. rewrite H1, H2. cbn [obind as_num]. rewrite (dbg_round _ O). destruct e; reflexivity. Qed.

  Lemma dnode_round d n : okN n -> (jdepth (dnode_json print n) <= d)%nat -> dnode_of base d (dnode_json print n) = Some n.
  Proof.
    destruct n as [e n]. unfold okN. cbn [fst snd]. intros [O1 O2] L. unfold dnode_json, elem_json in *. cbn [fst snd] in *. unfold dnode_of, sget, nget, aget.
    destruct n as [c i o|c im f|x t|x]; cbn [app] in *; look.
    - rewrite (elem_round e); auto. cbn [obind]. look. rewrite (omap_all as_str JStr i); auto.
    - rewrite (elem_round e); auto. cbn [obind]. look. f_equal. f_equal. f_equal. change (filter (fun kv : string * json => own (fst kv)) f = f).
      clear - O2. induction f as [|kv f IH]; auto. cbn [forallb filter] in *. apply andb_true_iff in O2 as [O2 O3]. rewrite O2, IH; auto.
    - rewrite (elem_round e); auto. cbn [obind]. look. rewrite type_round; auto. deep "data_type".
    - rewrite (elem_round e); auto.
  Qed.
  Lemma find_id_round ns : NoDup (map (fun n : elem * dnode => fst (fst n)) ns) -> forall k, (k < List.length ns)%nat -> find_id (id_at ns k) ns = Some k.
  Proof.
    induction ns as [|n ns IH]; cbn [map List.length find_id]; intros N k L; [lia|]. inversion N; subst. destruct k as [|k].
    - unfold id_at. cbn [nth_error]. rewrite Z.eqb_refl. reflexivity.
    - unfold id_at in *. cbn [nth_error]. assert (exists m, nth_error ns k = Some m) as [m E]. { destruct (nth_error ns k) eqn:E; eauto. apply nth_error_None in E. lia. }
      destruct (Z.eqb_spec (fst (fst n)) (match nth_error ns k with Some n0 => fst (fst n0) | None => -1 end)) as [Q|Q].
      + exfalso. rewrite E in Q. apply H1. rewrite Q. apply in_map_iff. exists m. split; auto. eapply nth_error_In; eauto.
      + rewrite IH; auto. lia.
  Qed.
  Lemma edge_round d ns g : NoDup (map (fun n : elem * dnode => fst (fst n)) ns) -> okG ns g -> (jdepth (edge_json print ns g) <= d)%nat -> edge_of base d ns (edge_json print ns g) = Some g.
  Proof.
    intros N (O1 & O2 & O3 & O4 & O5) L. unfold edge_json, elem_json in *. cbn [app] in *. unfold edge_of, sget, nget, aget. rewrite (elem_round (g_elem g)); auto. cbn [obind]. look.
    rewrite !find_id_round by auto. cbn [obind]. rewrite type_round; auto; [|deep "base_type"]. cbn [obind]. rewrite exprs_round by auto. destruct g; reflexivity.
  Qed.
  Lemma omap_depth {A} (f : nat -> json -> option A) (g : A -> json) (P : A -> Prop) l d :
    (forall x, P x -> (jdepth (g x) <= d)%nat -> f d (g x) = Some x) -> Forall P l -> (jdepth (JArr (map g l)) <= d)%nat -> omap (f d) (map g l) = Some l.
  Proof. intros H F L. rewrite Forall_forall in F. apply omap_all. intros x Hx. apply H; auto. pose proof (depth_arr (g x) (map g l) (in_map g l x Hx)). lia. Qed.
  Lemma dataflow_round d ns es : Forall okN ns -> NoDup (map (fun n : elem * dnode => fst (fst n)) ns) -> Forall (okG ns) es ->
    (jdepth (dataflow_json print ns es) <= d)%nat -> dataflow_of base d (dataflow_json print ns es) = Some (ns, es).
  Proof.
    intros O1 O2 O3 L. unfold dataflow_json in *. unfold dataflow_of, sget, aget. look.
    rewrite (omap_depth (dnode_of base) (dnode_json print) okN); auto; [|intros; apply dnode_round; auto|deep "nodes"]. cbn [obind].
    assert (E: omap (edge_of base d ns) (map (edge_json print ns) es) = Some es).
    { apply (omap_depth (fun d => edge_of base d ns) (edge_json print ns) (okG ns)); auto; [intros; apply edge_round; auto|deep "edges"]. }
    rewrite E. reflexivity.
  Qed.
  Lemma props_round (l : list (string * string)) : omap (fun kv => let? s := as_str (snd kv) in Some (fst kv, s)) (map (fun p => (fst p, JStr (snd p))) l) = Some l.
  Proof. apply omap_all. intros [x y] _. reflexivity. Qed.
  Lemma sched_round h : sched_of (sched_json h) = Some h.
  Proof. unfold sched_of, sched_json, sget, oget. look. rewrite props_round. destruct h; reflexivity. Qed.
  Lemma mem_spec x l : mem x l = true <-> In x l.
  Proof. unfold mem. rewrite existsb_exists. split; [intros (y & H & E); apply String.eqb_eq in E; subst; auto|]. intros H. exists x. rewrite String.eqb_refl. auto. Qed.
  Lemma keep_first_id {A} (l : list (string * A)) : forall seen, NoDup (map fst l) -> (forall x, In x seen -> ~ In x (map fst l)) -> keep_first seen l = l.
  Proof.
    induction l as [|[x a] l IH]; cbn [keep_first map fst]; intros seen N S; auto. inversion N; subst. destruct (mem x seen) eqn:E; [apply mem_spec in E; exfalso; apply (S x E); left; auto|].
    rewrite IH; auto. intros y [<-|Hy]; auto. intros C. apply (S y Hy). right; auto.
  Qed.
  Lemma trans_round te a : okL te -> okF a -> trans_of base (trans_json print te a) = Some (te, a).
  Proof.
    intros O [N F]. unfold trans_of, trans_json, elem_json, aget. cbn [app]. rewrite (elem_round te); auto. cbn [obind]. look.
    rewrite (omap_all (asg_of base) _ a). { cbn [obind]. rewrite keep_first_id; auto. }
    intros [x e] Hx. rewrite Forall_forall in F. specialize (F _ Hx). unfold asg_of, eget, sget. look. cbn [fst snd] in *. rewrite parse_round; auto.
  Qed.

  Lemma node_json_eq (n : cnode) : node_json print printc n = (
    match n with
    | XBlock e ns es => JObj (("type", JStr "block") :: elem_json e ++ [("dataflow", dataflow_json print ns es)])
    | XSeq q => seq_json print printc q
    | XIf e bs => JObj (("type", JStr "if_else") :: elem_json e ++ [("branches", JArr (brs_json print printc bs))])
    | XWhile e q => JObj (("type", JStr "while") :: elem_json e ++ [("root", seq_json print printc q)])
    | XFor e i init c u q => JObj (("type", JStr "for") :: elem_json e ++ [("indvar", JStr i); ("init", JStr (print init)); ("condition", JStr (printc c)); ("update", JStr (print u)); ("root", seq_json print printc q)])
    | XMap e i init c u h q => JObj (("type", JStr "map") :: elem_json e ++ [("indvar", JStr i); ("init", JStr (print init)); ("condition", JStr (printc c)); ("update", JStr (print u)); ("schedule_type", sched_json h); ("root", seq_json print printc q)])
    | XBreak e => JObj (("type", JStr "break") :: elem_json e)
    | XContinue e => JObj (("type", JStr "continue") :: elem_json e)
    | XReturn e d t => JObj (("type", JStr "return") :: elem_json e ++ ("data", JStr d) :: match t with Some t => [("data_type", Serial.type_json print t)] | None => [] end)
    end).
  Proof. destruct n; reflexivity. Qed.
  Lemma seq_json_eq (q : cseq) : seq_json print printc q = (
    match q with CSeq e k => JObj (("type", JStr "sequence") :: elem_json e ++ [("children", JArr (kids_json print printc k)); ("transitions", JArr (trs_json print k))]) end).
  Proof. destruct q; reflexivity. Qed.
  Lemma kids_json_eq (k : ckids) : kids_json print printc k = ( match k with KNil => [] | KCons n te a k => node_json print printc n :: kids_json print printc k end).
  Proof. destruct k; reflexivity. Qed.
  Lemma brs_json_eq (b : cbrs) : brs_json print printc b = ( match b with QNil => [] | QCons c q b => JObj [("condition", JStr (printc c)); ("root", seq_json print printc q)] :: brs_json print printc b end).
  Proof. destruct b; reflexivity. Qed.
  Lemma seq_of_eq n j : seq_of base basec (S n) j = (
        let? k := sget j "type" in
        if String.eqb k "sequence" then
          let? e := elem_of j in
          let? cs := aget j "children" in
          let? ts := aget j "transitions" in
          let? ks := (fix go cs ts := match cs, ts with
                                     | [], [] => Some KNil
                                     | c :: cs, t :: ts => let? ta := trans_of base t in let? x := node_of base basec n c in let? r := go cs ts in Some (KCons x (fst ta) (snd ta) r)
                                     | _, _ => None
                                     end) cs ts in
          Some (CSeq e ks)
        else None
).
  Proof. reflexivity. Qed.
  Lemma node_of_eq n j : node_of base basec (S n) j = (
        let? k := sget j "type" in
        if String.eqb k "block" then
          let? e := elem_of j in let? d := obind (jget j "dataflow") (dataflow_of base n) in Some (XBlock e (fst d) (snd d))
        else if String.eqb k "for" then
          let? e := elem_of j in let? i := sget j "indvar" in let? a := eget base j "init" in let? u := eget base j "update" in let? c := cget basec j "condition" in let? q := obind (jget j "root") (seq_of base basec n) in Some (XFor e i a c u q)
        else if String.eqb k "if_else" then
          let? e := elem_of j in
          let? bs := obind (aget j "branches") (fix go l := match l with
                                                 | [] => Some QNil
                                                 | b :: r => let? c := cget basec b "condition" in let? q := obind (jget b "root") (seq_of base basec n) in let? t := go r in Some (QCons c q t)
                                                 end) in
          Some (XIf e bs)
        else if String.eqb k "while" then let? e := elem_of j in let? q := obind (jget j "root") (seq_of base basec n) in Some (XWhile e q)
        else if String.eqb k "break" then let? e := elem_of j in Some (XBreak e)
        else if String.eqb k "continue" then let? e := elem_of j in Some (XContinue e)
        else if String.eqb k "return" then
          let? e := elem_of j in let? d := sget j "data" in
          let? t := match jget j "data_type" with Some t => option_map Some (Serial.type_of base n t) | None => Some None end in Some (XReturn e d t)
        else if String.eqb k "map" then
          let? e := elem_of j in let? h := obind (jget j "schedule_type") sched_of in let? i := sget j "indvar" in let? a := eget base j "init" in let? u := eget base j "update" in let? c := cget basec j "condition" in let? q := obind (jget j "root") (seq_of base basec n) in Some (XMap e i a c u h q)
        else if String.eqb k "sequence" then let? q := seq_of base basec n j in Some (XSeq q)
        else None
).
  Proof. reflexivity. Qed.
  Lemma node_round_all :
    (forall n, forall d, okX n -> (2 * jdepth (node_json print printc n) <= d)%nat -> node_of base basec d (node_json print printc n) = Some n) /\
    (forall q, forall d, okQ q -> (2 * jdepth (seq_json print printc q) <= S d)%nat -> seq_of base basec d (seq_json print printc q) = Some q) /\
    (forall k, forall d, okK k -> (2 * jdepth (JArr (kids_json print printc k)) <= S (S d))%nat ->
      (fix go cs ts := match cs, ts with
                       | [], [] => Some KNil
                       | c :: cs, t :: ts => let? ta := trans_of base t in let? x := node_of base basec d c in let? r := go cs ts in Some (KCons x (fst ta) (snd ta) r)
                       | _, _ => None
                       end) (kids_json print printc k) (trs_json print k) = Some k) /\
    (forall b, forall d, okBs b -> (2 * jdepth (JArr (brs_json print printc b)) <= S (S (S d)))%nat ->
      (fix go l := match l with
                   | [] => Some QNil
                   | b :: r => let? c := cget basec b "condition" in let? q := obind (jget b "root") (seq_of base basec d) in let? t := go r in Some (QCons c q t)
                   end) (brs_json print printc b) = Some b).
  Proof.
    assert (TY: forall t d, okT t -> (jdepth (type_json t) <= d)%nat -> type_of d (type_json t) = Some t) by exact type_round.
    apply cnode_mutind.
    - intros e ns es d (O1 & O2 & O3 & O4) L. rewrite node_json_eq in L |- *. unfold elem_json in *. cbn [app] in *. destruct d as [|d]; [exfalso; cbn [jdepth] in L; lia|]. rewrite node_of_eq. unfold sget. look.
      rewrite (elem_round e); auto. cbn [obind]. rewrite dataflow_round; auto. assert (L': (jdepth (JObj [("type", JStr "block"); ("element_id", JNum (fst e)); ("debug_info", dbg_json (snd e)); ("dataflow", dataflow_json print ns es)]) <= S d)%nat) by lia. deep "dataflow".
    - intros q IH d O L. change (node_json print printc (XSeq q)) with (seq_json print printc q) in *. cbn [okX] in O. destruct d as [|d]; [exfalso; destruct q; cbn [seq_json jdepth] in L; lia|]. pose proof (IH d O L) as R. assert (T: sget (seq_json print printc q) "type" = Some "sequence") by (destruct q; reflexivity). rewrite node_of_eq. rewrite T. cbn [obind String.eqb Ascii.eqb Bool.eqb]. rewrite R. reflexivity.
    - intros e bs IH d (O1 & O2) L. rewrite node_json_eq in L |- *. unfold elem_json in *. cbn [app] in *. destruct d as [|d]; [exfalso; cbn [jdepth] in L; lia|]. rewrite node_of_eq. unfold sget, aget. look.
      rewrite (elem_round e); auto. cbn [obind]. rewrite IH; auto.
      match type of L with (2 * jdepth (JObj ?l) <= _)%nat => assert (H : In ("branches", JArr (brs_json print printc bs)) l) by (cbn [In]; auto); pose proof (depth_obj _ _ _ H); lia end.
    - intros e q IH d (O1 & O2) L. rewrite node_json_eq in L |- *. unfold elem_json in *. cbn [app] in *. destruct d as [|d]; [exfalso; cbn [jdepth] in L; lia|]. rewrite node_of_eq. unfold sget, aget. look.
      rewrite (elem_round e); auto. cbn [obind]. rewrite IH; auto.
      match type of L with (2 * jdepth (JObj ?l) <= _)%nat => assert (H : In ("root", seq_json print printc q) l) by (cbn [In]; auto 9); pose proof (depth_obj _ _ _ H); lia end.
    - intros e i a c u q IH d (O1 & O2 & O3 & O4 & O5) L. rewrite node_json_eq in L |- *. unfold elem_json in *. cbn [app] in *. destruct d as [|d]; [exfalso; cbn [jdepth] in L; lia|]. rewrite node_of_eq. unfold sget, eget, cget, aget. look.
      rewrite (elem_round e); auto. cbn [obind]. unfold sget. look. rewrite (parse_round a O2), (parse_round u O4). cbn [obind]. rewrite (parsec_round c O3). cbn [obind]. rewrite IH; auto.
      match type of L with (2 * jdepth (JObj ?l) <= _)%nat => assert (H : In ("root", seq_json print printc q) l) by (cbn [In]; auto 12); pose proof (depth_obj _ _ _ H); lia end.
    - intros e i a c u h q IH d (O1 & O2 & O3 & O4 & O5) L. rewrite node_json_eq in L |- *. unfold elem_json in *. cbn [app] in *. destruct d as [|d]; [exfalso; cbn [jdepth] in L; lia|]. rewrite node_of_eq. unfold sget, eget, cget, aget. look.
      rewrite (elem_round e); auto. cbn [obind]. rewrite sched_round. cbn [obind]. unfold sget. look. rewrite (parse_round a O2), (parse_round u O4). cbn [obind]. rewrite (parsec_round c O3). cbn [obind]. rewrite IH; auto.
      match type of L with (2 * jdepth (JObj ?l) <= _)%nat => assert (H : In ("root", seq_json print printc q) l) by (cbn [In]; auto 12); pose proof (depth_obj _ _ _ H); lia end.
    - intros e d O L. rewrite node_json_eq in L |- *. cbn [okX] in *. unfold elem_json in *. destruct d as [|d]; [exfalso; cbn [jdepth] in L; lia|]. rewrite node_of_eq. unfold sget. look. rewrite (elem_round e); auto.
    - intros e d O L. rewrite node_json_eq in L |- *. cbn [okX] in *. unfold elem_json in *. destruct d as [|d]; [exfalso; cbn [jdepth] in L; lia|]. rewrite node_of_eq. unfold sget. look. rewrite (elem_round e); auto.
    - intros e x t d (O1 & O2) L. rewrite node_json_eq in L |- *. unfold elem_json in *. cbn [app] in *. destruct d as [|d]; [exfalso; cbn [jdepth] in L; lia|]. rewrite node_of_eq. unfold sget. look.
      destruct t as [t|]; look; rewrite (elem_round e); auto. cbn [obind]. rewrite TY; auto.
      match type of L with (2 * jdepth (JObj ?l) <= _)%nat => assert (H : In ("data_type", type_json t) l) by (cbn [In]; auto 12); pose proof (depth_obj _ _ _ H); lia end.
    - intros e k IH d (O1 & O2) L. rewrite seq_json_eq in L |- *. unfold elem_json in *. cbn [app] in *. destruct d as [|d]; [exfalso; cbn [jdepth] in L; lia|]. rewrite seq_of_eq. unfold sget, aget. look.
      rewrite (elem_round e); auto. cbn [obind]. rewrite IH; auto.
      match type of L with (2 * jdepth (JObj ?l) <= _)%nat => assert (H : In ("children", JArr (kids_json print printc k)) l) by (cbn [In]; auto 12); pose proof (depth_obj _ _ _ H); lia end.
    - intros d _ _. reflexivity.
    - intros n IHn te a k IHk d (O1 & O2 & O3 & O4) L. rewrite kids_json_eq in L |- *. cbn [trs_json] in *. rewrite (trans_round te a); auto. cbn [obind fst snd]. cbn [jdepth fold_right] in L. rewrite IHn; auto; [|lia]. cbn [obind]. rewrite IHk; auto. cbn [jdepth]. lia.
    - intros d _ _. reflexivity.
    - intros c q IHq b IHb d (O1 & O2 & O3) L. rewrite brs_json_eq in L |- *. unfold cget, sget. look. rewrite (parsec_round c O1). cbn [obind]. cbn [jdepth fold_right snd] in L. rewrite IHq; auto; [|lia]. cbn [obind]. unfold cget, sget in IHb. rewrite IHb; auto. cbn [jdepth]. lia.
  Qed.

  (** ** Whole programs *)
  Definition cont (l : list (string * ty)) (x : string) : option ty :=
    option_map snd (find (fun xt => String.eqb x (fst xt)) l).
  Lemma cont_cons y t l x : cont ((y, t) :: l) x = if String.eqb x y then Some t else cont l x.
  Proof. unfold cont. cbn [find fst]. destruct (String.eqb x y); reflexivity. Qed.
  Lemma cont_in l x t : cont l x = Some t -> In (x, t) l.
  Proof.
    induction l as [|[y s] l IH]; [discriminate|]. rewrite cont_cons. destruct (String.eqb x y) eqn:E; intros H; [apply String.eqb_eq in E; injection H as ->; subst; left; auto|right; auto].
  Qed.
  Lemma cont_some l x : In x (map fst l) -> exists t, cont l x = Some t.
  Proof.
    induction l as [|[y s] l IH]; intros H; [destruct H|]. rewrite cont_cons. destruct (String.eqb x y) eqn:E; [eauto|]. destruct H as [H|H]; [cbn in H; subst; rewrite String.eqb_refl in E; discriminate|auto].
  Qed.
  Lemma in_cont l x t : NoDup (map fst l) -> In (x, t) l -> cont l x = Some t.
  Proof.
    induction l as [|[y s] l IH]; intros N H; [destruct H|]. rewrite cont_cons. inversion N as [|? ? N1 N2]; subst. destruct H as [H|H].
    - injection H as -> ->. rewrite String.eqb_refl. auto.
    - destruct (String.eqb x y) eqn:E; [|auto]. apply String.eqb_eq in E. subst. exfalso. apply N1. cbn. apply in_map_iff. exists (y, t). auto.
  Qed.
  Lemma cont_app l m x : cont (l ++ m) x = match cont l x with Some t => Some t | None => cont m x end.
  Proof. induction l as [|[y s] l IH]; auto. cbn [app]. rewrite !cont_cons. destruct (String.eqb x y); auto. Qed.
  Lemma cont_none l x : ~ In x (map fst l) -> cont l x = None.
  Proof. intros H. destruct (cont l x) as [t|] eqn:E; auto. apply cont_in in E. exfalso. apply H. apply in_map_iff. exists (x, t). auto. Qed.
  Lemma jlookup_cont l x : jlookup (map (fun xt => (fst xt, type_json (snd xt))) l) x = option_map type_json (cont l x).
  Proof. induction l as [|[y s] l IH]; auto. rewrite cont_cons. cbn [map fst snd jlookup]. destruct (String.eqb x y); auto. Qed.
  Lemma jlookup_in l x v : jlookup l x = Some v -> In (x, v) l.
  Proof. induction l as [|[y s] l IH]; [discriminate|]. cbn [jlookup]. destruct (String.eqb x y) eqn:E; intros H; [apply String.eqb_eq in E; injection H as ->; subst; left; auto|right; auto]. Qed.

  Definition ty_at (l : list (string * ty)) (x : string) : ty := match cont l x with Some t => t | None => TScalar attrs0 Void end.
  Definition syms (C : list (string * ty)) (l : list string) : list string := filter (fun x => is_symbol (ty_at C x)) l.

  Lemma mem_false x l : ~ In x l -> mem x l = false.
  Proof. intros H. destruct (mem x l) eqn:E; auto. apply mem_spec in E. tauto. Qed.
  Lemma fst_at C l : map fst (map (fun x => (x, ty_at C x)) l) = l.
  Proof. rewrite map_map. cbn. apply map_id. Qed.

  Lemma exts_round (C : list (string * ty)) (n : nat) (conts : list (string * json)) exts : forall b,
    (forall x, In x (map fst exts) -> exists t, cont C x = Some t /\ okT t /\ (jdepth (type_json t) <= n)%nat /\ legal x = true) ->
    (forall x, jlookup conts x = option_map type_json (cont C x)) ->
    NoDup (map fst exts) -> (forall x, In x (map fst exts) -> ~ In x (map fst (b_cont b))) ->
    ofold (fun b x => let? nm := sget x "name" in let? k := nget x "linkage_type" in let? t := obind (jlookup conts nm) (type_of n) in add_external legal b nm t k)
      (map (fun xl => JObj [("name", JStr (fst xl)); ("linkage_type", JNum (snd xl))]) exts) b =
    Some {| b_cont := b_cont b ++ map (fun x => (x, ty_at C x)) (map fst exts); b_args := b_args b; b_exts := b_exts b ++ exts; b_assumed := b_assumed b |}.
  Proof.
    induction exts as [|[x k] exts IH]; intros b H HL N F.
    - cbn. rewrite !app_nil_r. destruct b; reflexivity.
    - cbn [map ofold fst snd]. unfold sget at 1, nget at 1. look. rewrite HL. destruct (H x) as (t & H1 & H2 & H3 & H4); [cbn; auto|]. rewrite H1. look. rewrite type_round; auto. cbn [obind].
      inversion N as [|? ? N1 N2]; subst. unfold add_external at 1. rewrite H4. rewrite mem_false; [|apply F; cbn; auto]. cbn [negb orb obind]. rewrite IH; auto.
      + cbn [b_cont b_args b_exts b_assumed]. rewrite <- !app_assoc. cbn [app map]. unfold ty_at at 2. rewrite H1. reflexivity.
      + intros y Hy. apply H. cbn. auto.
      + intros y Hy. cbn [b_cont]. rewrite map_app. intros G. apply in_app_or in G as [G|G]; [revert G; apply F; cbn; auto|]. cbn in G. destruct G as [<-|[]]. exact (N1 Hy).
  Qed.
  Lemma args_round (C : list (string * ty)) (n : nat) (conts : list (string * json)) args : forall b,
    (forall x, In x args -> exists t, cont C x = Some t /\ okT t /\ (jdepth (type_json t) <= n)%nat /\ legal x = true /\ is_tensor t = false) ->
    (forall x, jlookup conts x = option_map type_json (cont C x)) ->
    NoDup args -> (forall x, In x args -> ~ In x (map fst (b_cont b))) ->
    ofold (fun b x => let? nm := as_str x in let? t := obind (jlookup conts nm) (type_of n) in add_container legal b nm t true false) (map JStr args) b =
    Some {| b_cont := b_cont b ++ map (fun x => (x, ty_at C x)) args; b_args := b_args b ++ args; b_exts := b_exts b; b_assumed := b_assumed b ++ syms C args |}.
  Proof.
    induction args as [|x args IH]; intros b H HL N F.
    - cbn. rewrite !app_nil_r. destruct b; reflexivity.
    - cbn [map ofold]. look. rewrite HL. destruct (H x) as (t & H1 & H2 & H3 & H4 & H5); [cbn; auto|]. rewrite H1. look. rewrite type_round; auto. cbn [obind].
      inversion N as [|? ? N1 N2]; subst. unfold add_container at 1. rewrite H4, H5. rewrite mem_false; [|apply F; cbn; auto]. cbn [negb orb andb obind]. rewrite IH; auto.
      + cbn [b_cont b_args b_exts b_assumed]. rewrite app_nil_r. rewrite <- !app_assoc. cbn [app map syms filter]. assert (T: ty_at C x = t) by (unfold ty_at; rewrite H1; auto). rewrite T. destruct (is_symbol t); reflexivity.
      + intros y Hy. apply H. cbn. auto.
      + intros y Hy. cbn [b_cont]. rewrite map_app. intros G. apply in_app_or in G as [G|G]; [revert G; apply F; cbn; auto|]. cbn in G. destruct G as [<-|[]]. exact (N1 Hy).
  Qed.
  (** containers that are neither arguments nor externals *)
  Definition rest (args exts : list string) (l : list string) : list string := filter (fun x => negb (mem x args || mem x exts)) l.
  Lemma trans_containers (C : list (string * ty)) (n : nat) l : forall b,
    (forall x t, In (x, t) l -> cont C x = Some t /\ okT t /\ (jdepth (type_json t) <= n)%nat /\ legal x = true /\ (mem x (map fst (b_exts b)) = false -> is_tensor t = false)) ->
    NoDup (map fst l) ->
    (forall x, In x (map fst l) -> mem x (b_args b) || mem x (map fst (b_exts b)) = false -> ~ In x (map fst (b_cont b))) ->
    ofold (fun b kv => if mem (fst kv) (b_args b) || mem (fst kv) (map fst (b_exts b)) then Some b else let? t := type_of n (snd kv) in add_container legal b (fst kv) t false false)
      (map (fun xt => (fst xt, type_json (snd xt))) l) b =
    Some {| b_cont := b_cont b ++ map (fun x => (x, ty_at C x)) (rest (b_args b) (map fst (b_exts b)) (map fst l)); b_args := b_args b; b_exts := b_exts b;
            b_assumed := b_assumed b ++ syms C (rest (b_args b) (map fst (b_exts b)) (map fst l)) |}.
  Proof.
    induction l as [|[x t] l IH]; intros b H N F.
    - cbn. rewrite !app_nil_r. destruct b; reflexivity.
    - cbn [map ofold fst snd rest filter]. inversion N as [|? ? N1 N2]; subst. destruct (mem x (b_args b) || mem x (map fst (b_exts b))) eqn:E.
      + cbn [obind negb]. rewrite IH; auto; [intros y s Hy; apply H; right; auto|intros y Hy; apply F; cbn; auto].
      + destruct (H x t) as (H1 & H2 & H3 & H4 & H5); [cbn; auto|]. rewrite type_round; auto. cbn [obind negb]. unfold add_container at 1.
        assert (E2: mem x (map fst (b_exts b)) = false) by (apply orb_false_iff in E; tauto). rewrite (H5 E2), H4. rewrite mem_false; [|apply F; cbn; auto]. cbn [negb orb andb obind].
        rewrite IH; cbn [b_cont b_args b_exts b_assumed]; rewrite ?app_nil_r; auto.
        * cbn [map syms filter]. assert (T: ty_at C x = t) by (unfold ty_at; rewrite H1; auto). rewrite T. rewrite <- !app_assoc. cbn [app]. f_equal. f_equal. destruct (is_symbol t); reflexivity.
        * intros y s Hy. apply H. right; auto.
        * intros y Hy G1 G. rewrite map_app in G. apply in_app_or in G as [G|G]; [revert G; apply F; cbn; auto|]. cbn in G. destruct G as [<-|[]]. exact (N1 Hy).
  Qed.
  Lemma cont_at C l x : cont (map (fun x => (x, ty_at C x)) l) x = if mem x l then Some (ty_at C x) else None.
  Proof. induction l as [|y l IH]; auto. cbn [map]. rewrite cont_cons. unfold mem. cbn [existsb]. destruct (String.eqb x y) eqn:E; [apply String.eqb_eq in E; subst; auto|]. rewrite IH. reflexivity. Qed.

  (** what a program must satisfy for its document to be readable *)
  Record wf (p : program) : Prop := {
    wf_ret : okT (p_ret p);
    wf_structs : NoDup (map fst (p_structs p));
    wf_members : forall s, In s (p_structs p) -> Forall okT (fst (snd s));
    wf_conts : NoDup (map fst (p_containers p));
    wf_types : forall x t, In (x, t) (p_containers p) -> okT t /\ legal x = true;
    wf_tensors : forall x t, In (x, t) (p_containers p) -> is_tensor t = true -> In x (map fst (p_exts p));
    wf_args : NoDup (p_args p) /\ incl (p_args p) (map fst (p_containers p));
    wf_exts : NoDup (map fst (p_exts p)) /\ incl (map fst (p_exts p)) (map fst (p_containers p));
    wf_disjoint : forall x, In x (p_args p) -> ~ In x (map fst (p_exts p));
    wf_root : okQ (p_root p) }.

  Lemma distinct_nodup l : NoDup l -> distinct l = true.
  Proof. induction 1 as [|x l H N IH]; auto. cbn [distinct]. rewrite (mem_false _ _ H), IH. reflexivity. Qed.
  Lemma jdepth_pos j : (1 <= jdepth j)%nat.
  Proof. destruct j; cbn [jdepth]; lia. Qed.

  Definition reload (p : program) : program :=
    let es := map fst (p_exts p) in
    let r := rest (p_args p) es (map fst (p_containers p)) in
    {| p_name := p_name p; p_counter := p_counter p; p_type := p_type p; p_ret := p_ret p; p_structs := p_structs p;
       p_containers := map (fun x => (x, ty_at (p_containers p) x)) (es ++ p_args p ++ r);
       p_args := p_args p; p_exts := p_exts p; p_meta := p_meta p;
       p_assumed := syms (p_containers p) (p_args p ++ r); p_root := p_root p |}.

  Lemma reload_round p : wf p -> deserialize base basec legal (serialize print printc p) = Some (reload p).
  Proof.
    intros W. destruct W as [W1 W2 W3 W4 W5 W6 [W7 W8] [W9 W10] W11 W12].
    set (doc := serialize print printc p).
    assert (DR: (jdepth (type_json (p_ret p)) <= fuel doc)%nat).
    { unfold fuel, doc, serialize. match goal with |- (_ <= 2 * jdepth (JObj ?l))%nat => assert (H : In ("return_type", type_json (p_ret p)) l) by (cbn [In]; auto 12); pose proof (depth_obj _ _ _ H) end. lia. }
    assert (DS: forall s, In s (p_structs p) -> forall t, In t (fst (snd s)) -> (jdepth (type_json t) <= fuel doc)%nat).
    { intros s Hs t Ht. unfold fuel, doc, serialize. match goal with |- (_ <= 2 * jdepth (JObj ?l))%nat => assert (H : In ("structures", JArr (map (struct_json print) (p_structs p))) l) by (cbn [In]; auto 12); pose proof (depth_obj _ _ _ H) as H1 end.
      pose proof (depth_arr _ _ (in_map (struct_json print) _ _ Hs)) as H2.
      assert (H3: In ("members", JArr (map type_json (fst (snd s)))) [("name", JStr (fst s)); ("members", JArr (map type_json (fst (snd s)))); ("is_packed", JBool (snd (snd s)))]) by (cbn [In]; auto). apply depth_obj in H3.
      pose proof (depth_arr _ _ (in_map type_json _ _ Ht)) as H4. unfold struct_json in H2 at 1. lia. }
    assert (DC: forall x t, In (x, t) (p_containers p) -> (jdepth (type_json t) <= fuel doc)%nat).
    { intros x t Ht. unfold fuel, doc, serialize. match goal with |- (_ <= 2 * jdepth (JObj ?l))%nat => assert (H : In ("containers", JObj (map (fun xt => (fst xt, type_json (snd xt))) (p_containers p))) l) by (cbn [In]; auto 12); pose proof (depth_obj _ _ _ H) as H1 end.
      pose proof (in_map (fun xt => (fst xt, type_json (snd xt))) _ _ Ht) as H2. cbn [fst snd] in H2. apply depth_obj in H2. lia. }
    assert (DQ: (2 * jdepth (seq_json print printc (p_root p)) <= fuel doc)%nat).
    { unfold fuel, doc, serialize. match goal with |- (_ <= 2 * jdepth (JObj ?l))%nat => assert (H : In ("root", seq_json print printc (p_root p)) l) by (cbn [In]; auto 12); pose proof (depth_obj _ _ _ H) end. lia. }
    unfold deserialize. fold doc. generalize dependent (fuel doc). intros n DR DS DC DQ. unfold doc, serialize. unfold sget at 1 2, nget at 1, aget at 1. look.
    rewrite type_round; auto. cbn [obind].
    rewrite (omap_all (struct_of base n) (struct_json print)).
    2:{ intros [m [ts pk]] Hs. unfold struct_of, struct_json, sget, bget, aget. cbn [fst snd]. look. rewrite (omap_all (type_of n) type_json); [reflexivity|].
        intros t Ht. apply type_round; [pose proof (W3 _ Hs) as Q; rewrite Forall_forall in Q; auto|exact (DS _ Hs _ Ht)]. }
    cbn [obind]. rewrite (distinct_nodup _ W2). cbn [negb]. unfold oget at 1. look. unfold aget at 1. look.
    rewrite (exts_round (p_containers p) n); auto.
    2:{ intros x Hx. destruct (cont_some _ _ (W10 _ Hx)) as (t & Ht). exists t. pose proof (cont_in _ _ _ Ht) as Hi. destruct (W5 _ _ Hi). eauto 6. }
    2:{ intros x. apply jlookup_cont. }
    cbn [obind build0 b_cont b_args b_exts b_assumed app]. unfold aget at 1. look.
    rewrite (args_round (p_containers p) n); auto.
    2:{ intros x Hx. destruct (cont_some _ _ (W8 _ Hx)) as (t & Ht). exists t. pose proof (cont_in _ _ _ Ht) as Hi. destruct (W5 _ _ Hi). repeat split; eauto.
        destruct (is_tensor t) eqn:E; auto. exfalso. exact (W11 _ Hx (W6 _ _ Hi E)). }
    2:{ intros x. apply jlookup_cont. }
    2:{ cbn [b_cont]. intros x Hx G. rewrite fst_at in G. exact (W11 _ Hx G). }
    cbn [obind b_cont b_args b_exts b_assumed app].
    rewrite (trans_containers (p_containers p) n); cbn [b_cont b_args b_exts b_assumed]; auto.
    2:{ intros x t Ht. destruct (W5 _ _ Ht). repeat split; eauto. apply in_cont; auto. intros G. destruct (is_tensor t) eqn:E; auto. apply W6 in Ht; auto. apply mem_spec in Ht. congruence. }
    2:{ intros x Hx E G. apply orb_false_iff in E as [E1 E2]. rewrite map_app, !fst_at in G. apply in_app_or in G as [G|G]; apply mem_spec in G; congruence. }
    cbn [obind]. destruct node_round_all as (_ & QR & _). assert (QQ: seq_of base basec n (seq_json print printc (p_root p)) = Some (p_root p)) by (apply QR; [exact W12|lia]). rewrite QQ. cbn [obind]. unfold oget at 1. look.
    rewrite (omap_all (fun kv => let? s := as_str (snd kv) in Some (fst kv, s)) (fun xm => (fst xm, JStr (snd xm)))); [|intros [a b] _; reflexivity].
    cbn [obind]. unfold reload. cbn zeta. rewrite !map_app. rewrite <- !app_assoc. unfold syms. rewrite filter_app. reflexivity.
  Qed.
  Lemma reload_cont p : wf p -> forall x, cont (p_containers (reload p)) x = cont (p_containers p) x.
  Proof.
    intros W x. cbn [reload p_containers]. rewrite cont_at. destruct (mem x _) eqn:E.
    - apply mem_spec in E. assert (Hi: In x (map fst (p_containers p))).
      { apply in_app_or in E as [E|E]; [exact (proj2 (wf_exts p W) _ E)|]. apply in_app_or in E as [E|E]; [exact (proj2 (wf_args p W) _ E)|]. unfold rest in E. apply filter_In in E. tauto. }
      destruct (cont_some _ _ Hi) as (t & Ht). unfold ty_at. rewrite Ht. reflexivity.
    - symmetry. apply cont_none. intros G. assert (In x (map fst (p_exts p) ++ p_args p ++ rest (p_args p) (map fst (p_exts p)) (map fst (p_containers p)))).
      { destruct (mem x (p_args p) || mem x (map fst (p_exts p))) eqn:D.
        - apply orb_true_iff in D as [D|D]; apply mem_spec in D; apply in_or_app; [right; apply in_or_app; left; auto|left; auto].
        - apply in_or_app. right. apply in_or_app. right. unfold rest. apply filter_In. split; auto. rewrite D. reflexivity. }
      apply mem_spec in H. congruence.
  Qed.
End Round.
