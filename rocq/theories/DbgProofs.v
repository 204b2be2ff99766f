(** Facts about source locations. *)
From Coq Require Import String List ZArith Bool Lia.
From Verif Require Import Sym SymFacts SymFuns Json Types Serial Dbg.
Import ListNotations.
Local Open Scope string_scope.
Local Open Scope list_scope.
Local Open Scope Z_scope.

Scheme cn_ind := Induction for cnode Sort Prop with cs_ind := Induction for cseq Sort Prop with ck_ind := Induction for ckids Sort Prop with cb_ind := Induction for cbrs Sort Prop.
Combined Scheme c_mut from cn_ind, cs_ind, ck_ind, cb_ind.

Lemma merge_none l r : d_has l = false -> merge l r = r. Proof. intros H. unfold merge. rewrite H. reflexivity. Qed.
Lemma merge_none_r l r : d_has l = true -> d_has r = false -> merge l r = l. Proof. intros H K. unfold merge. rewrite H, K. reflexivity. Qed.
Definition joined (l r : dbg) : dbg :=
    let s := if d_l1 l <? d_l1 r then l else r in
    let e := if d_l2 r <? d_l2 l then l else r in
    {| d_has := true; d_file := d_file l; d_func := if String.eqb (d_func l) "" then d_func r else d_func l;
       d_l1 := d_l1 s; d_c1 := d_c1 s; d_l2 := d_l2 e; d_c2 := d_c2 e |}.
Lemma merge_here f g l r : here f g l -> here f g r -> d_has l = true -> d_has r = true -> merge l r = joined l r.
Proof.
  intros A B H K. destruct (A H) as (A1 & A2). destruct (B K) as (B1 & B2). unfold merge. rewrite H, K, A1, B1, String.eqb_refl. cbn [negb].
  destruct A2 as [A2|A2], B2 as [B2|B2]; rewrite ?A2, ?B2, ?String.eqb_refl; cbn [negb andb]; rewrite ?andb_false_r; unfold joined; rewrite ?A1, ?A2, ?B2; reflexivity.
Qed.
Lemma here_joined f g l r : here f g l -> here f g r -> d_has l = true -> d_has r = true -> here f g (joined l r).
Proof.
  intros A B H K _. destruct (A H) as (A1 & A2). destruct (B K) as (B1 & B2). unfold joined. cbn. split; [exact A1|].
  destruct (String.eqb (d_func l) ""); [exact B2|exact A2].
Qed.
Lemma here_merge f g l r : here f g l -> here f g r -> here f g (merge l r).
Proof.
  intros A B. destruct (d_has l) eqn:H; [|rewrite merge_none; assumption]. destruct (d_has r) eqn:K; [|rewrite merge_none_r; assumption].
  rewrite (merge_here f g) by assumption. apply here_joined; assumption.
Qed.
Lemma here_mergeall f g l d : here f g d -> Forall (here f g) l -> here f g (mergeall d l).
Proof. revert d. induction l as [|x l IH]; intros d A B; [exact A|]. inversion B; subst. apply IH; [apply here_merge; assumption|assumption]. Qed.

(** Merging is associative and idempotent *)
Lemma merge_assoc f g a b c : here f g a -> here f g b -> here f g c -> merge (merge a b) c = merge a (merge b c).
Proof.
  intros A B C. destruct (d_has a) eqn:Ha.
  2:{ rewrite (merge_none a) by exact Ha. rewrite (merge_none a) by exact Ha. reflexivity. }
  destruct (d_has b) eqn:Hb.
  2:{ rewrite (merge_none_r a b) by assumption. rewrite (merge_none b) by exact Hb. reflexivity. }
  destruct (d_has c) eqn:Hc.
  2:{ rewrite (merge_none_r b c) by assumption. apply merge_none_r; [rewrite (merge_here f g) by assumption; reflexivity|exact Hc]. }
  rewrite (merge_here f g a b), (merge_here f g b c) by assumption.
  rewrite (merge_here f g) by first [assumption|reflexivity|apply here_joined; assumption].
  rewrite (merge_here f g) by first [assumption|reflexivity|apply here_joined; assumption].
  unfold joined. cbn [d_has d_file d_func d_l1 d_c1 d_l2 d_c2]. f_equal.
  - destruct (String.eqb (d_func a) "") eqn:E1, (String.eqb (d_func b) "") eqn:E2; rewrite ?E1, ?E2; reflexivity.
  - destruct (d_l1 a <? d_l1 b) eqn:E1, (d_l1 b <? d_l1 c) eqn:E2; rewrite ?E1, ?E2; try reflexivity; destruct (d_l1 a <? d_l1 c) eqn:E3; try reflexivity; lia.
  - destruct (d_l1 a <? d_l1 b) eqn:E1, (d_l1 b <? d_l1 c) eqn:E2; rewrite ?E1, ?E2; try reflexivity; destruct (d_l1 a <? d_l1 c) eqn:E3; try reflexivity; lia.
  - destruct (d_l2 b <? d_l2 a) eqn:E1, (d_l2 c <? d_l2 b) eqn:E2; rewrite ?E1, ?E2; try reflexivity; destruct (d_l2 c <? d_l2 a) eqn:E3; try reflexivity; lia.
  - destruct (d_l2 b <? d_l2 a) eqn:E1, (d_l2 c <? d_l2 b) eqn:E2; rewrite ?E1, ?E2; try reflexivity; destruct (d_l2 c <? d_l2 a) eqn:E3; try reflexivity; lia.
Qed.
Lemma merge_idem d : merge d d = d.
Proof.
  unfold merge. destruct (d_has d) eqn:H; [|reflexivity]. cbn [negb]. rewrite !String.eqb_refl. cbn [negb andb].
  rewrite !Z.ltb_irrefl. destruct d as [h f g a b c e]. cbn in *. subst h. destruct (String.eqb g ""); reflexivity.
Qed.
Lemma merge_left f g a b : here f g a -> here f g b -> merge (merge a b) b = merge a b.
Proof. intros A B. rewrite (merge_assoc f g) by assumption. rewrite merge_idem. reflexivity. Qed.
Lemma mergeall_out f g l : forall a b, here f g a -> here f g b -> Forall (here f g) l -> mergeall (merge a b) l = merge a (mergeall b l).
Proof.
  induction l as [|x l IH]; intros a b A B H; [reflexivity|]. inversion H; subst. cbn. rewrite (merge_assoc f g) by assumption.
  apply IH; [exact A|apply here_merge; assumption|assumption].
Qed.
Lemma mergeall_idem f g d l : here f g d -> Forall (here f g) l -> mergeall (mergeall d l) l = mergeall d l.
Proof.
  intros A H. destruct l as [|x l]; [reflexivity|]. inversion H as [|? ? B C]; subst. cbn.
  fold (mergeall (merge d x) l). rewrite (mergeall_out f g l d x) by assumption.
  set (t := mergeall x l). assert (T : here f g t) by (apply here_mergeall; assumption).
  fold (mergeall (merge (merge d t) x) l). rewrite (mergeall_out f g l (merge d t) x) by (try assumption; apply here_merge; assumption).
  fold t. apply (merge_left f g); assumption.
Qed.

(** Ranges *)
Lemma hull_one d : hull d [d].
Proof.
  split; [|split].
  - split; [intros H; exists d; split; [left; reflexivity|exact H]|intros (e & [<-|[]] & H); exact H].
  - intros e [<-|[]] _. split; reflexivity.
  - intros H. split; exists d; (split; [left; reflexivity|]); (split; [exact H|]); split; reflexivity.
Qed.
Lemma hull_merge f g a b la lb : here f g a -> here f g b -> hull a la -> hull b lb -> hull (merge a b) (la ++ lb).
Proof.
  intros Ua Ub (A1 & A2 & A3) (B1 & B2 & B3).
  assert (Na : d_has a = false -> forall e, In e la -> d_has e = true -> False) by (intros H e I K; assert (d_has a = true) by (apply A1; exists e; split; assumption); congruence).
  assert (Nb : d_has b = false -> forall e, In e lb -> d_has e = true -> False) by (intros H e I K; assert (d_has b = true) by (apply B1; exists e; split; assumption); congruence).
  destruct (d_has a) eqn:Ha.
  - destruct (d_has b) eqn:Hb.
    + rewrite (merge_here f g) by assumption. destruct (A3 eq_refl) as (As & Ae). destruct (B3 eq_refl) as (Bs & Be). clear A3 B3. unfold joined. split; [|split]; cbn [d_has d_l1 d_l2 d_c1 d_c2].
      * split; [intros _|intros _; reflexivity]. destruct As as (e & I & K & _). exists e. split; [apply in_app_iff; left; exact I|exact K].
      * intros e I K. apply in_app_iff in I. destruct (d_l1 a <? d_l1 b) eqn:E1, (d_l2 b <? d_l2 a) eqn:E2; apply Z.ltb_lt in E1 || apply Z.ltb_ge in E1; apply Z.ltb_lt in E2 || apply Z.ltb_ge in E2;
          destruct I as [I|I]; (destruct (A2 _ I K) || destruct (B2 _ I K)); lia.
      * intros _. split.
        -- destruct (d_l1 a <? d_l1 b); [destruct As as (e & I & K)|destruct Bs as (e & I & K)]; exists e; (split; [apply in_app_iff; first [left; exact I|right; exact I]|exact K]).
        -- destruct (d_l2 b <? d_l2 a); [destruct Ae as (e & I & K)|destruct Be as (e & I & K)]; exists e; (split; [apply in_app_iff; first [left; exact I|right; exact I]|exact K]).
    + rewrite merge_none_r by assumption. split; [|split].
      * split; [intros _|intros _; exact Ha]. destruct (proj1 A1 eq_refl) as (e & I & K). exists e. split; [apply in_app_iff; left; exact I|exact K].
      * intros e I K. apply in_app_iff in I. destruct I as [I|I]; [apply A2; assumption|exfalso; exact (Nb eq_refl _ I K)].
      * intros _. destruct (A3 eq_refl) as ((e & I & K) & e' & I' & K'). split; [exists e|exists e']; (split; [apply in_app_iff; left; assumption|assumption]).
  - rewrite merge_none by exact Ha. split; [|split].
    + split.
      * intros H. destruct (proj1 B1 H) as (e & I & K). exists e. split; [apply in_app_iff; right; exact I|exact K].
      * intros (e & I & K). apply in_app_iff in I. destruct I as [I|I]; [exfalso; exact (Na eq_refl _ I K)|apply B1; exists e; split; assumption].
    + intros e I K. apply in_app_iff in I. destruct I as [I|I]; [exfalso; exact (Na eq_refl _ I K)|apply B2; assumption].
    + intros H. destruct (B3 H) as ((e & I & K) & e' & I' & K'). split; [exists e|exists e']; (split; [apply in_app_iff; right; assumption|assumption]).
Qed.
Lemma hull_all f g ls dss : Forall2 hull ls dss -> Forall (here f g) ls -> forall d l, here f g d -> hull d l -> hull (mergeall d ls) (l ++ List.concat dss).
Proof.
  induction 1 as [|x xs ls dss Hx Hr IH]; intros U d l Ud H.
  - cbn. rewrite app_nil_r. exact H.
  - inversion U; subst. cbn. rewrite app_assoc. apply IH; [assumption|apply here_merge; assumption|]. apply (hull_merge f g); assumption.
Qed.
Lemma hull_map {A} (h : A -> dbg) l : Forall2 hull (map h l) (map (fun x => [h x]) l).
Proof. induction l; cbn; constructor; [apply hull_one|assumption]. Qed.
Lemma concat_single {A} (h : A -> dbg) l : List.concat (map (fun x => [h x]) l) = map h l.
Proof. induction l; cbn; [reflexivity|rewrite IHl; reflexivity]. Qed.

Lemma hull_flat f g d l : here f g d -> Forall (here f g) l -> hull (mergeall d l) (d :: l).
Proof.
  intros A B. replace (d :: l) with ([d] ++ List.concat (map (fun x => [x]) l)) by (rewrite (concat_single (fun x => x)), map_id; reflexivity).
  apply (hull_all f g); [|exact B|exact A|apply hull_one]. rewrite <- (map_id l) at 1. apply (hull_map (fun x => x)).
Qed.

(** Everything the pass writes is in the same file and function *)
Lemma here_mut f g :
  (forall n, Forall (here f g) (infos_n n) -> Forall (here f g) (infos_n (prop_n n)) /\ here f g (top (prop_n n))) /\
  (forall q, Forall (here f g) (infos_s q) -> Forall (here f g) (infos_s (prop_s q)) /\ here f g (top_s (prop_s q))) /\
  (forall k, Forall (here f g) (infos_k k) -> Forall (here f g) (infos_k (prop_k k)) /\ Forall (here f g) (tops_k (prop_k k))) /\
  (forall b, Forall (here f g) (infos_b b) -> Forall (here f g) (infos_b (prop_b b)) /\ Forall (here f g) (tops_b (prop_b b))).
Proof.
  apply c_mut; cbn [infos_n infos_s infos_k infos_b prop_n prop_s prop_k prop_b top top_s tops_k tops_b set snd].
  - intros e ns es H. inversion H; subst. assert (here f g (mergeall (snd e) (map (fun x => snd (fst x)) ns ++ map (fun g0 => snd (g_elem g0)) es))) by (apply here_mergeall; assumption).
    split; [constructor; assumption|assumption].
  - intros q IH H. exact (IH H).
  - intros e b IH H. inversion H as [|? ? H1 H2]; subst. destruct (IH H2) as (A & B). assert (here f g (mergeall (snd e) (tops_b (prop_b b)))) by (apply here_mergeall; assumption).
    split; [constructor; assumption|assumption].
  - intros e q IH H. inversion H as [|? ? H1 H2]; subst. destruct (IH H2) as (A & B). assert (here f g (merge (snd e) (top_s (prop_s q)))) by (apply here_merge; assumption). split; [constructor; assumption|assumption].
  - intros e i a c u q IH H. inversion H as [|? ? H1 H2]; subst. destruct (IH H2) as (A & B). assert (here f g (merge (snd e) (top_s (prop_s q)))) by (apply here_merge; assumption). split; [constructor; assumption|assumption].
  - intros e i a c u h q IH H. inversion H as [|? ? H1 H2]; subst. destruct (IH H2) as (A & B). assert (here f g (merge (snd e) (top_s (prop_s q)))) by (apply here_merge; assumption). split; [constructor; assumption|assumption].
  - intros e H. rewrite merge_idem. inversion H; subst. split; assumption.
  - intros e H. rewrite merge_idem. inversion H; subst. split; assumption.
  - intros e d t H. rewrite merge_idem. inversion H; subst. split; assumption.
  - intros e k IH H. inversion H as [|? ? H1 H2]; subst. destruct (IH H2) as (A & B). assert (here f g (mergeall (snd e) (tops_k (prop_k k)))) by (apply here_mergeall; assumption). split; [constructor; assumption|assumption].
  - intros _. split; constructor.
  - intros n IHn te a k IHk H. apply Forall_app in H. destruct H as (H1 & H2). inversion H2 as [|? ? H3 H4]; subst. destruct (IHn H1) as (A & B). destruct (IHk H4) as (C & D).
    split; [apply Forall_app; split; [assumption|constructor; assumption]|constructor; [assumption|constructor; assumption]].
  - intros _. split; constructor.
  - intros c q IHq b IHb H. apply Forall_app in H. destruct H as (H1 & H2). destruct (IHq H1) as (A & B). destruct (IHb H2) as (C & D).
    split; [apply Forall_app; split; assumption|constructor; assumption].
Qed.

(** The locations of the result are the ranges of the original's *)
Definition ranges := Forall2 (fun r o : dbg * list dbg => hull (fst r) (snd o)).
Lemma hull_mut f g :
  (forall n, Forall (here f g) (infos_n n) -> hull (top (prop_n n)) (infos_n n) /\ ranges (nodes_n (prop_n n)) (nodes_n n)) /\
  (forall q, Forall (here f g) (infos_s q) -> hull (top_s (prop_s q)) (infos_s q) /\ ranges (nodes_s (prop_s q)) (nodes_s q)) /\
  (forall k, Forall (here f g) (infos_k k) -> (exists dss, Forall2 hull (tops_k (prop_k k)) dss /\ List.concat dss = infos_k k) /\ ranges (nodes_k (prop_k k)) (nodes_k k)) /\
  (forall b, Forall (here f g) (infos_b b) -> (exists dss, Forall2 hull (tops_b (prop_b b)) dss /\ List.concat dss = infos_b b) /\ ranges (nodes_b (prop_b b)) (nodes_b b)).
Proof.
  destruct (here_mut f g) as (Un & Us & Uk & Ub).
  apply c_mut; cbn [infos_n infos_s infos_k infos_b prop_n prop_s prop_k prop_b top top_s tops_k tops_b nodes_n nodes_s nodes_k nodes_b set snd fst].
  - intros e ns es H. inversion H as [|? ? H1 H2]; subst.
    assert (K : hull (mergeall (snd e) (map (fun x => snd (fst x)) ns ++ map (fun g0 => snd (g_elem g0)) es)) (snd e :: map (fun x => snd (fst x)) ns ++ map (fun g0 => snd (g_elem g0)) es)).
    { apply (hull_flat f g); assumption. }
    split; [exact K|constructor; [exact K|constructor]].
  - intros q IH H. exact (IH H).
  - intros e b IH H. inversion H as [|? ? H1 H2]; subst. destruct (IH H2) as ((dss & A & B) & C). destruct (Ub b H2) as (_ & D).
    assert (K : hull (mergeall (snd e) (tops_b (prop_b b))) (snd e :: infos_b b)) by (rewrite <- B; apply (hull_all f g _ _ A D _ [snd e]); [exact H1|apply hull_one]).
    split; [exact K|constructor; [exact K|exact C]].
  - intros e q IH H. inversion H as [|? ? H1 H2]; subst. destruct (IH H2) as (A & C). destruct (Us q H2) as (_ & D).
    assert (K : hull (merge (snd e) (top_s (prop_s q))) (snd e :: infos_s q)) by (apply (hull_merge f g _ _ [snd e]); [exact H1|exact D|apply hull_one|exact A]).
    split; [exact K|constructor; [exact K|exact C]].
  - intros e i a c u q IH H. inversion H as [|? ? H1 H2]; subst. destruct (IH H2) as (A & C). destruct (Us q H2) as (_ & D).
    assert (K : hull (merge (snd e) (top_s (prop_s q))) (snd e :: infos_s q)) by (apply (hull_merge f g _ _ [snd e]); [exact H1|exact D|apply hull_one|exact A]).
    split; [exact K|constructor; [exact K|exact C]].
  - intros e i a c u h q IH H. inversion H as [|? ? H1 H2]; subst. destruct (IH H2) as (A & C). destruct (Us q H2) as (_ & D).
    assert (K : hull (merge (snd e) (top_s (prop_s q))) (snd e :: infos_s q)) by (apply (hull_merge f g _ _ [snd e]); [exact H1|exact D|apply hull_one|exact A]).
    split; [exact K|constructor; [exact K|exact C]].
  - intros e H. rewrite merge_idem. split; [apply hull_one|constructor; [apply hull_one|constructor]].
  - intros e H. rewrite merge_idem. split; [apply hull_one|constructor; [apply hull_one|constructor]].
  - intros e d t H. rewrite merge_idem. split; [apply hull_one|constructor; [apply hull_one|constructor]].
  - intros e k IH H. inversion H as [|? ? H1 H2]; subst. destruct (IH H2) as ((dss & A & B) & C). destruct (Uk k H2) as (_ & D).
    assert (K : hull (mergeall (snd e) (tops_k (prop_k k))) (snd e :: infos_k k)) by (rewrite <- B; apply (hull_all f g _ _ A D _ [snd e]); [exact H1|apply hull_one]).
    split; [exact K|constructor; [exact K|exact C]].
  - intros _. split; [exists []; split; [constructor|reflexivity]|constructor].
  - intros n IHn te a k IHk H. apply Forall_app in H. destruct H as (H1 & H2). inversion H2 as [|? ? H3 H4]; subst. destruct (IHn H1) as (A & B). destruct (IHk H4) as ((dss & C & E) & D).
    split; [|apply Forall2_app; assumption]. exists (infos_n n :: [snd te] :: dss). split; [constructor; [exact A|constructor; [apply hull_one|exact C]]|]. cbn. rewrite E. reflexivity.
  - intros _. split; [exists []; split; [constructor|reflexivity]|constructor].
  - intros c q IHq b IHb H. apply Forall_app in H. destruct H as (H1 & H2). destruct (IHq H1) as (A & B). destruct (IHb H2) as ((dss & C & E) & D).
    split; [|apply Forall2_app; assumption]. exists (infos_s q :: dss). split; [constructor; assumption|]. cbn. rewrite E. reflexivity.
Qed.

(** Running the pass again changes nothing *)
Lemma idem_mut f g :
  (forall n, Forall (here f g) (infos_n n) -> prop_n (prop_n n) = prop_n n) /\
  (forall q, Forall (here f g) (infos_s q) -> prop_s (prop_s q) = prop_s q) /\
  (forall k, Forall (here f g) (infos_k k) -> prop_k (prop_k k) = prop_k k) /\
  (forall b, Forall (here f g) (infos_b b) -> prop_b (prop_b b) = prop_b b).
Proof.
  destruct (here_mut f g) as (Un & Us & Uk & Ub).
  apply c_mut; cbn [infos_n infos_s infos_k infos_b prop_n prop_s prop_k prop_b].
  - intros e ns es H. inversion H as [|? ? H1 H2]; subst. unfold set. cbn [fst snd]. rewrite (mergeall_idem f g) by assumption. reflexivity.
  - intros q IH H. rewrite (IH H). reflexivity.
  - intros e b IH H. inversion H as [|? ? H1 H2]; subst. rewrite (IH H2). unfold set. cbn [fst snd]. rewrite (mergeall_idem f g) by first [assumption|apply (Ub b H2)]. reflexivity.
  - intros e q IH H. inversion H as [|? ? H1 H2]; subst. rewrite (IH H2). unfold set. cbn [fst snd]. rewrite (merge_left f g) by first [assumption|apply (Us q H2)]. reflexivity.
  - intros e i a c u q IH H. inversion H as [|? ? H1 H2]; subst. rewrite (IH H2). unfold set. cbn [fst snd]. rewrite (merge_left f g) by first [assumption|apply (Us q H2)]. reflexivity.
  - intros e i a c u h q IH H. inversion H as [|? ? H1 H2]; subst. rewrite (IH H2). unfold set. cbn [fst snd]. rewrite (merge_left f g) by first [assumption|apply (Us q H2)]. reflexivity.
  - intros e H. unfold set. cbn [fst snd]. rewrite !merge_idem. reflexivity.
  - intros e H. unfold set. cbn [fst snd]. rewrite !merge_idem. reflexivity.
  - intros e d t H. unfold set. cbn [fst snd]. rewrite !merge_idem. reflexivity.
  - intros e k IH H. inversion H as [|? ? H1 H2]; subst. rewrite (IH H2). unfold set. cbn [fst snd]. rewrite (mergeall_idem f g) by first [assumption|apply (Uk k H2)]. reflexivity.
  - reflexivity.
  - intros n IHn te a k IHk H. apply Forall_app in H. destruct H as (H1 & H2). inversion H2 as [|? ? H3 H4]; subst. rewrite (IHn H1), (IHk H4). reflexivity.
  - reflexivity.
  - intros c q IHq b IHb H. apply Forall_app in H. destruct H as (H1 & H2). rewrite (IHq H1), (IHb H2). reflexivity.
Qed.

(** Nothing but locations of control flow nodes changes *)
Lemma strip_mut :
  (forall n, strip_n (prop_n n) = strip_n n) /\ (forall q, strip_s (prop_s q) = strip_s q) /\
  (forall k, strip_k (prop_k k) = strip_k k) /\ (forall b, strip_b (prop_b b) = strip_b b).
Proof.
  apply c_mut; cbn [prop_n prop_s prop_k prop_b strip_n strip_s strip_k strip_b]; unfold set, blank; cbn [fst]; intros; congruence.
Qed.

(** Without any condition on files and functions *)
Lemma has_merge l r : d_has (merge l r) = d_has l || d_has r.
Proof.
  unfold merge. destruct (d_has l) eqn:H; cbn [negb orb]; [|reflexivity]. destruct (d_has r) eqn:K; cbn [negb]; [|exact H].
  destruct (negb (String.eqb (d_file l) (d_file r))); [exact H|].
  destruct (negb (String.eqb (d_func l) (d_func r)) && negb (String.eqb (d_func l) "") && negb (String.eqb (d_func r) "")); [exact H|reflexivity].
Qed.
Lemma has_mergeall l d : d_has (mergeall d l) = d_has d || existsb d_has l.
Proof. revert d. induction l as [|x l IH]; intros d; cbn; [rewrite orb_false_r; reflexivity|]. unfold mergeall in IH. rewrite IH, has_merge, orb_assoc. reflexivity. Qed.
(** [r] is a location in the file of [o] that covers its lines *)
Definition keeps (r o : dbg) : Prop := d_has o = true -> d_has r = true /\ d_file r = d_file o /\ d_l1 r <= d_l1 o /\ d_l2 o <= d_l2 r.
Lemma keeps_refl d : keeps d d. Proof. intros H. repeat split; [exact H|reflexivity|reflexivity]. Qed.
Lemma keeps_trans a b c : keeps a b -> keeps b c -> keeps a c.
Proof. intros A B H. destruct (B H) as (B1 & B2 & B3 & B4). destruct (A B1) as (A1 & A2 & A3 & A4). repeat split; [exact A1|congruence|lia|lia]. Qed.
Lemma keeps_merge l r : keeps (merge l r) l.
Proof.
  intros H. unfold merge. rewrite H. cbn [negb]. destruct (d_has r) eqn:K; cbn [negb]; [|apply keeps_refl, H].
  destruct (negb (String.eqb (d_file l) (d_file r))); [apply keeps_refl, H|].
  destruct (negb (String.eqb (d_func l) (d_func r)) && negb (String.eqb (d_func l) "") && negb (String.eqb (d_func r) "")); [apply keeps_refl, H|]. cbn [d_has d_file d_l1 d_l2].
  split; [reflexivity|split; [reflexivity|]].
  destruct (d_l1 l <? d_l1 r) eqn:E1, (d_l2 r <? d_l2 l) eqn:E2; lia.
Qed.
Lemma keeps_mergeall l d : keeps (mergeall d l) d.
Proof. revert d. induction l as [|x l IH]; intros d; [apply keeps_refl|]. cbn. eapply keeps_trans; [apply IH|apply keeps_merge]. Qed.
Definition alike := Forall2 (fun r o : dbg * list dbg => d_has (fst r) = existsb d_has (snd o) /\ keeps (fst r) (fst o)).
Lemma alike_mut :
  (forall n, d_has (top (prop_n n)) = existsb d_has (infos_n n) /\ alike (nodes_n (prop_n n)) (nodes_n n)) /\
  (forall q, d_has (top_s (prop_s q)) = existsb d_has (infos_s q) /\ alike (nodes_s (prop_s q)) (nodes_s q)) /\
  (forall k, existsb d_has (tops_k (prop_k k)) = existsb d_has (infos_k k) /\ alike (nodes_k (prop_k k)) (nodes_k k)) /\
  (forall b, existsb d_has (tops_b (prop_b b)) = existsb d_has (infos_b b) /\ alike (nodes_b (prop_b b)) (nodes_b b)).
Proof.
  assert (One : forall e l i, d_has (merge (snd e) l) = existsb d_has (snd e :: i) -> d_has (merge (snd (e : elem)) l) = existsb d_has (snd e :: i) /\ keeps (merge (snd e) l) (snd e)) by (intros e l i H; split; [exact H|apply keeps_merge]).
  apply c_mut; cbn [infos_n infos_s infos_k infos_b prop_n prop_s prop_k prop_b top top_s tops_k tops_b nodes_n nodes_s nodes_k nodes_b set snd fst].
  - intros e ns es. rewrite has_mergeall. split; [reflexivity|]. constructor; [split; cbn [fst snd]; [rewrite has_mergeall; reflexivity|apply keeps_mergeall]|constructor].
  - intros q IH. exact IH.
  - intros e b (A & B). rewrite has_mergeall, A. split; [reflexivity|]. constructor; [split; cbn [fst snd]; [rewrite has_mergeall, A; reflexivity|apply keeps_mergeall]|exact B].
  - intros e q (A & B). rewrite has_merge, A. split; [reflexivity|]. constructor; [split; cbn [fst snd]; [rewrite has_merge, A; reflexivity|apply keeps_merge]|exact B].
  - intros e i a c u q (A & B). rewrite has_merge, A. split; [reflexivity|]. constructor; [split; cbn [fst snd]; [rewrite has_merge, A; reflexivity|apply keeps_merge]|exact B].
  - intros e i a c u h q (A & B). rewrite has_merge, A. split; [reflexivity|]. constructor; [split; cbn [fst snd]; [rewrite has_merge, A; reflexivity|apply keeps_merge]|exact B].
  - intros e. rewrite merge_idem. cbn. rewrite orb_false_r. split; [reflexivity|]. constructor; [split; cbn [fst snd existsb]; [rewrite orb_false_r; reflexivity|apply keeps_refl]|constructor].
  - intros e. rewrite merge_idem. cbn. rewrite orb_false_r. split; [reflexivity|]. constructor; [split; cbn [fst snd existsb]; [rewrite orb_false_r; reflexivity|apply keeps_refl]|constructor].
  - intros e d t. rewrite merge_idem. cbn. rewrite orb_false_r. split; [reflexivity|]. constructor; [split; cbn [fst snd existsb]; [rewrite orb_false_r; reflexivity|apply keeps_refl]|constructor].
  - intros e k (A & B). rewrite has_mergeall, A. split; [reflexivity|]. constructor; [split; cbn [fst snd]; [rewrite has_mergeall, A; reflexivity|apply keeps_mergeall]|exact B].
  - split; [reflexivity|constructor].
  - intros n (A & B) te a k (C & D). cbn [existsb]. rewrite existsb_app. cbn [existsb]. rewrite A, C. split; [reflexivity|apply Forall2_app; assumption].
  - split; [reflexivity|constructor].
  - intros c q (A & B) b (C & D). cbn [existsb]. rewrite existsb_app, A, C. split; [reflexivity|apply Forall2_app; assumption].
Qed.

(** No line is made up and no two files are mixed *)
Definition found (d : dbg) (l : list dbg) : Prop := d_has d = true ->
  (exists e, In e l /\ d_has e = true /\ d_file e = d_file d /\ d_l1 e = d_l1 d /\ d_c1 e = d_c1 d) /\
  (exists e, In e l /\ d_has e = true /\ d_file e = d_file d /\ d_l2 e = d_l2 d /\ d_c2 e = d_c2 d) /\
  (exists e, In e l /\ d_has e = true /\ d_file e = d_file d /\ d_func e = d_func d).
Lemma found_in d l : In d l -> found d l.
Proof. intros I H. split; [|split]; exists d; repeat split; assumption. Qed.
Lemma found_incl d l l' : found d l -> incl l l' -> found d l'.
Proof.
  intros F L H. destruct (F H) as ((a & A & A') & (b & B & B') & (c & C & C')). split; [|split]; [exists a|exists b|exists c]; (split; [apply L; assumption|assumption]).
Qed.
Lemma found_merge a b l : found a l -> found b l -> found (merge a b) l.
Proof.
  intros A B. unfold merge. destruct (d_has a) eqn:Ha; cbn [negb]; [|exact B]. destruct (d_has b) eqn:Hb; cbn [negb]; [|exact A].
  destruct (String.eqb (d_file a) (d_file b)) eqn:Ef; cbn [negb]; [|exact A]. apply String.eqb_eq in Ef.
  destruct (negb (String.eqb (d_func a) (d_func b)) && negb (String.eqb (d_func a) "") && negb (String.eqb (d_func b) "")); [exact A|].
  intros _. destruct (A Ha) as (A1 & A2 & A3). destruct (B Hb) as (B1 & B2 & B3). rewrite <- Ef in B1, B2, B3. cbn [d_file d_func d_l1 d_c1 d_l2 d_c2].
  split; [destruct (d_l1 a <? d_l1 b); assumption|]. split; [destruct (d_l2 b <? d_l2 a); assumption|]. destruct (String.eqb (d_func a) ""); assumption.
Qed.
Lemma found_all ls l d : found d l -> Forall (fun x => found x l) ls -> found (mergeall d ls) l.
Proof. revert d. induction ls as [|x ls IH]; intros d A B; [exact A|]. inversion B; subst. apply IH; [apply found_merge; assumption|assumption]. Qed.
Lemma found_ls ls ls' : Forall (fun x => found x ls) ls' -> forall l, incl ls l -> Forall (fun x => found x l) ls'.
Proof. intros H l L. eapply Forall_impl; [|exact H]. intros x F. exact (found_incl x ls l F L). Qed.
Definition founds := Forall2 (fun r o : dbg * list dbg => found (fst r) (snd o)).
Lemma found_mut :
  (forall n, found (top (prop_n n)) (infos_n n) /\ founds (nodes_n (prop_n n)) (nodes_n n)) /\
  (forall q, found (top_s (prop_s q)) (infos_s q) /\ founds (nodes_s (prop_s q)) (nodes_s q)) /\
  (forall k, Forall (fun x => found x (infos_k k)) (tops_k (prop_k k)) /\ founds (nodes_k (prop_k k)) (nodes_k k)) /\
  (forall b, Forall (fun x => found x (infos_b b)) (tops_b (prop_b b)) /\ founds (nodes_b (prop_b b)) (nodes_b b)).
Proof.
  assert (One : forall x l i, found x i -> found (merge l x) (l :: i)) by (intros x l i F; apply found_merge; [apply found_in; left; reflexivity|eapply found_incl; [exact F|intros y J; right; exact J]]).
  assert (All : forall ls l i, Forall (fun x => found x i) ls -> found (mergeall l ls) (l :: i)) by (intros ls l i F; apply found_all; [apply found_in; left; reflexivity|eapply found_ls; [exact F|intros y J; right; exact J]]).
  apply c_mut; cbn [infos_n infos_s infos_k infos_b prop_n prop_s prop_k prop_b top top_s tops_k tops_b nodes_n nodes_s nodes_k nodes_b set snd fst].
  - intros e ns es. assert (K : found (mergeall (snd e) (map (fun x => snd (fst x)) ns ++ map (fun g0 => snd (g_elem g0)) es)) (snd e :: map (fun x => snd (fst x)) ns ++ map (fun g0 => snd (g_elem g0)) es)).
    { apply All. apply Forall_forall. intros x J. apply found_in. exact J. }
    split; [exact K|constructor; [exact K|constructor]].
  - intros q IH. exact IH.
  - intros e b (A & B). pose proof (All _ (snd e) _ A) as K. split; [exact K|constructor; [exact K|exact B]].
  - intros e q (A & B). pose proof (One _ (snd e) _ A) as K. split; [exact K|constructor; [exact K|exact B]].
  - intros e i a c u q (A & B). pose proof (One _ (snd e) _ A) as K. split; [exact K|constructor; [exact K|exact B]].
  - intros e i a c u h q (A & B). pose proof (One _ (snd e) _ A) as K. split; [exact K|constructor; [exact K|exact B]].
  - intros e. rewrite merge_idem. assert (K : found (snd e) [snd e]) by (apply found_in; left; reflexivity). split; [exact K|constructor; [exact K|constructor]].
  - intros e. rewrite merge_idem. assert (K : found (snd e) [snd e]) by (apply found_in; left; reflexivity). split; [exact K|constructor; [exact K|constructor]].
  - intros e d t. rewrite merge_idem. assert (K : found (snd e) [snd e]) by (apply found_in; left; reflexivity). split; [exact K|constructor; [exact K|constructor]].
  - intros e k (A & B). pose proof (All _ (snd e) _ A) as K. split; [exact K|constructor; [exact K|exact B]].
  - split; constructor.
  - intros n (A & B) te a k (C & D). split; [|apply Forall2_app; assumption]. constructor; [eapply found_incl; [exact A|intros y J; apply in_app_iff; left; exact J]|].
    constructor; [apply found_in; apply in_app_iff; right; left; reflexivity|]. eapply found_ls; [exact C|]. intros y J. apply in_app_iff. right. right. exact J.
  - split; constructor.
  - intros c q (A & B) b (C & D). split; [|apply Forall2_app; assumption]. constructor; [eapply found_incl; [exact A|intros y J; apply in_app_iff; left; exact J]|].
    eapply found_ls; [exact C|]. intros y J. apply in_app_iff. right. exact J.
Qed.
