(** * How many element operations: collections *)

From Coq Require Import List Arith Lia Bool Permutation.
From Verif Require Import Base Vec Backend Segment Coll Spec ProofBase ProofVec ProofBackend ProofOps ProofOps2 ProofSeg ProofMap ProofView ProofColl ProofIns ProofErase ProofRange ProofCost ProofCost2 ProofCost3.
Import ListNotations.

Section CostC.
Context {V : Type} {E : Env V}.
Notation SW := (segment V * world)%type.
Notation CW := (coll V * world)%type.
Notation nb n := (sg_be (n_seg n)).
Notation nsz n := (bsize (sg_be (n_seg n))).

(** ** Segments *)
Lemma cost_set_snt p (s : SW) : xcost (set_snt p) s 0.
Proof. unfold cost, set_snt, modify. cbn. lia. Qed.
Lemma cost_filter_snt m (s : SW) k : xcost m (sg_be (fst s), snd s) k -> xcost (filter_snt m) s k.
Proof.
  intros H. unfold filter_snt. rewrite <- (Nat.add_0_r k). apply cost_bind; [apply cost_on_field; exact H|]. intros; apply cost_set_snt.
Qed.
Lemma cost_filter_range m (s : SW) k : xcost m (sg_be (fst s), snd s) k -> xcost (filter_range m) s k.
Proof.
  intros H. unfold filter_range. rewrite <- (Nat.add_0_r k). apply cost_bind; [apply cost_on_field; exact H|].
  intros; apply cost_bind0; [apply cost_set_snt|]. intros; apply cost_ret.
Qed.
Lemma cost_check {A} t (m : M SW A) (s : SW) k : (sg_ty (fst s) = t -> xcost m s k) -> xcost (check_ty t ;; m)%mon s k.
Proof.
  intros H. apply cost_bind0.
  - unfold check_ty. apply cost_bind_getx. destruct (_ =? _); [apply cost_ret|apply cost_ub].
  - intros s' u Q. unfold check_ty, bind, getx, ret, ub in Q. destruct (sg_ty (fst s) =? t) eqn:T; inversion Q; subst. apply H. apply Nat.eqb_eq; exact T.
Qed.
Lemma cost_seg_push_back t h x (s : segment V) w : wfs s -> xcost (seg_push_back t h x) (s, w) (ins_cost (sg_be s) (bsize (sg_be s))).
Proof. intros [W _]. unfold seg_push_back. apply cost_check. cbn [fst]. intros <-. apply cost_filter_range, cost_be_push_back, W. Qed.
Lemma cost_seg_emplace t h p k x (s : segment V) w : wfs s -> pos_at (sg_be s) p k -> xcost (seg_emplace t h p x) (s, w) (ins_cost (sg_be s) k).
Proof. intros [W _] P. unfold seg_emplace. apply cost_check. cbn [fst]. intros <-. apply cost_filter_range. apply cost_be_emplace; [apply W|exact P]. Qed.
Lemma cost_seg_insert t h p k x (s : segment V) w : wfs s -> pos_at (sg_be s) p k -> k <= bsize (sg_be s) ->
  xcost (seg_insert t h p x) (s, w) (ins_cost (sg_be s) k).
Proof. intros [W _] P K. unfold seg_insert. apply cost_check. cbn [fst]. intros <-. apply cost_filter_range. apply cost_be_insert; [apply W|exact P|exact K]. Qed.
Lemma cost_seg_reserve m (s : segment V) w : wfs s -> xcost (seg_reserve m) (s, w) (if m <=? bcap (sg_be s) then 5 else 8 * bsize (sg_be s) + 9).
Proof. intros [W _]. unfold seg_reserve. apply cost_bind_getx. apply cost_filter_snt, cost_be_reserve, W. Qed.
Lemma cost_seg_shrink (s : segment V) w : wfs s -> xcost seg_shrink_to_fit (s, w) (7 * bsize (sg_be s) + 12).
Proof. intros [W _]. unfold seg_shrink_to_fit. apply cost_bind_getx. apply cost_filter_snt, cost_be_shrink, W. Qed.

(** the erasing operations: what they do is paid for by the elements which go away *)
Notation mus := (fun s : segment V => 2 * bsize (sg_be s)).
Lemma pays_on_be {A} (m : M (backend V * world) A) (s : SW) k :
  xpays (fun b => 2 * bsize b) m (sg_be (fst s), snd s) k -> xpays mus (on_be m) s k.
Proof. unfold pays, on_be, on_field. destruct (m (sg_be (fst s), snd s)) as [[b w] a|[b w] e|]; auto. Qed.
Lemma pays_set_snt p (s : SW) : xpays mus (set_snt p) s 0.
Proof. unfold pays, set_snt, modify. cbn. lia. Qed.
Lemma pays_filter_snt m (s : SW) k : xpays (fun b => 2 * bsize b) m (sg_be (fst s), snd s) k -> xpays mus (filter_snt m) s k.
Proof.
  intros H. unfold filter_snt. rewrite <- (Nat.add_0_r k). apply pays_bind; [apply pays_on_be; exact H|]. intros; apply pays_set_snt.
Qed.
Lemma pays_filter_range m (s : SW) k : xpays (fun b => 2 * bsize b) m (sg_be (fst s), snd s) k -> xpays mus (filter_range m) s k.
Proof.
  intros H. unfold filter_range. rewrite <- (Nat.add_0_r k). apply pays_bind; [apply pays_on_be; exact H|].
  intros; apply pays_bind0; [apply pays_set_snt|]. intros; apply pays_ret.
Qed.
Lemma pays_seg_erase p k (s : segment V) w : wfs s -> pos_at (sg_be s) p k -> k < bsize (sg_be s) ->
  xpays mus (seg_erase p) (s, w) (bsize (sg_be s) - k).
Proof. intros [W _] P K. unfold seg_erase. apply pays_bind_getx. apply pays_filter_range. exact (pays_be_erase _ _ _ _ _ W P K). Qed.
Lemma pays_seg_erase_range p q f l (s : segment V) w : wfs s -> pos_at (sg_be s) p f -> pos_at (sg_be s) q l -> f <= bsize (sg_be s) -> l <= bsize (sg_be s) ->
  xpays mus (seg_erase_range p q) (s, w) (bsize (sg_be s) - l).
Proof. intros [W _] P Q F L. unfold seg_erase_range. apply pays_bind_getx. apply pays_filter_range. exact (pays_be_erase_range _ _ _ _ _ _ _ W P Q F L). Qed.
Lemma pays_seg_till_end p f (s : segment V) w : pos_at (sg_be s) p f -> xpays mus (seg_erase_till_end p) (s, w) 0.
Proof. intros P. unfold seg_erase_till_end. apply pays_bind_getx. apply pays_filter_range. exact (pays_be_erase_till_end _ _ _ _ _ P). Qed.
Lemma pays_seg_from_begin p l (s : segment V) w : pos_at (sg_be s) p l -> xpays mus (seg_erase_from_begin p) (s, w) (bsize (sg_be s) - l).
Proof. intros P. unfold seg_erase_from_begin. apply pays_bind_getx. apply pays_filter_range. exact (pays_be_erase_from_begin _ _ _ _ _ P). Qed.
Lemma pays_seg_clear (s : segment V) w : wfs s -> xpays mus seg_clear (s, w) 0.
Proof. intros [W _]. unfold seg_clear. apply pays_bind_getx. apply pays_filter_snt. exact (pays_be_clear _ _ _ W). Qed.

(** ** A segment of a collection *)
Lemma cost_on_seg {A} i n (m : M SW A) (c : coll V) w k : node_at (c_nodes c) i = Some n -> xcost m (n_seg n, w) k -> xcost (on_seg i m) (c, w) k.
Proof. intros Hn. unfold cost, on_seg. rewrite Hn. cbn [snd]. destruct (m (n_seg n, w)) as [[s w'] a|[s w'] e|]; auto. Qed.

Lemma sum_upd (ns : list (node V)) i n s : node_at ns i = Some n ->
  sum_sizes (node_upd ns i s) + bsize (sg_be (n_seg n)) = sum_sizes ns + bsize (sg_be s).
Proof.
  induction ns as [|m ns IH]; cbn [node_at node_upd]; [discriminate|]. destruct (n_id m =? i).
  - intros H; inversion H; subst. cbn [sum_sizes n_seg]. unfold seg_size, be_size, bsize. lia.
  - intros H. apply IH in H. cbn [sum_sizes]. lia.
Qed.
Notation muc := (fun c : coll V => 2 * c_size c).
Lemma pays_on_seg {A} i n (m : M SW A) (c : coll V) w k : node_at (c_nodes c) i = Some n -> xpays mus m (n_seg n, w) k -> xpays muc (on_seg i m) (c, w) k.
Proof.
  intros Hn. unfold pays, on_seg. rewrite Hn. cbn [snd fst]. destruct (m (n_seg n, w)) as [[s w'] a|[s w'] e|]; auto; cbn [fst snd]; unfold c_size; cbn [c_nodes];
    pose proof (sum_upd (c_nodes c) i n s Hn); lia.
Qed.
Lemma cost_mk_iter m p (s : CW) : xcost (mk_iter m p) s 0.
Proof. unfold mk_iter. apply cost_bind_getx. destruct (it_make _ _ _); [apply cost_ret|apply cost_ub]. Qed.
Lemma pays_mk_iter m p (s : CW) : xpays muc (mk_iter m p) s 0.
Proof. unfold mk_iter. apply pays_bind_getx. destruct (it_make _ _ _); [apply pays_ret|apply pays_ub]. Qed.
Lemma cost_same_node m i (s : CW) : xcost (same_node m i) s 0.
Proof. unfold same_node. destruct m; [|apply cost_ret]. apply cost_bind_getx. destruct (node_at _ _); [apply cost_ret|apply cost_ub]. Qed.
Lemma cost_by_info a (s : CW) : xcost (map_iterator_by_info a) s 0.
Proof. unfold map_iterator_by_info. apply cost_bind_getx. destruct (tim_find_const _ _); [apply cost_ret|apply cost_throw]. Qed.
Lemma by_info_ok a (s s' : CW) i : map_iterator_by_info a s = Ok s' i -> s' = s.
Proof. unfold map_iterator_by_info, bind, getx. destruct (tim_find_const _ _); unfold ret, throw; intros H; inversion H; reflexivity. Qed.

(** ** Insertion *)
(** The number of element operations allowed for an insertion of an element of type [t] before the [k]-th. *)
Definition insert_work (c : coll V) (t : tyid) (k : nat) : nat :=
  if length (elems c t) <? cap_of c t then length (elems c t) - k + 9 else 9 * length (elems c t) + 18.
Lemma prev_ins_cost w c t i s k : wfm w c -> prev c t i s -> k <= length (elems c t) -> ins_cost (sg_be s) k <= insert_work c t k.
Proof.
  intros W P K. unfold ins_cost, insert_work. pose proof (prev_size _ _ _ _ _ W P) as Z. rewrite Z.
  destruct (in_dec Nat.eq_dec t (types c)) as [I|N].
  - rewrite (prev_cap _ _ _ _ _ W P I). lia.
  - pose proof (prev_unreg _ _ _ _ P N) as Z0. rewrite Z in Z0. rewrite Z0 in *.
    assert (Cz : cap_of c t = 0).
    { unfold cap_of. rewrite seg_at_none by (rewrite <- types_nodes; exact N). reflexivity. }
    rewrite Cz. change (0 <? 0) with false. cbn [Nat.add Nat.mul Nat.sub]. destruct (0 <? bcap (sg_be s)); lia.
Qed.

Lemma find_ok a (c : coll V) w R K s' i : wfm w c -> cown w c R K -> find_or_make a (c, w) = Ok s' i ->
  exists n, i = n_id n /\ made w c a R K (snd s') (fst s') n.
Proof.
  intros W H Q. revert Q. apply (fun P => wp_ok _ _ _ _ (fun s j => exists n, j = n_id n /\ made w c a R K (snd s) (fst s) n) (fun _ _ => True) P).
  eapply wp_find_or_make; [exact W|exact H| |auto]. intros w' c' n M. exists n. auto.
Qed.
Lemma iterator_for_ok x (c : coll V) w R K s' i : wfm w c -> cown w c R K -> arg_ok x -> map_iterator_for x (c, w) = Ok s' i ->
  exists n, i = n_id n /\ made w c (a_dyn x) R K (snd s') (fst s') n.
Proof.
  intros W H Ok Q. revert Q. apply (fun P => wp_ok _ _ _ _ (fun s j => exists n, j = n_id n /\ made w c (a_dyn x) R K (snd s) (fst s) n) (fun _ _ => True) P).
  eapply wp_map_iterator_for; [exact W|exact H|exact Ok| |auto|auto]. intros w' c' n M _. exists n. auto.
Qed.
Lemma cost_made {A} w c a R K (s1 : CW) n k (m : M SW A) : wfc w c -> made w c a R K (snd s1) (fst s1) n -> k <= length (elems c (env_ty a)) ->
  xcost m (n_seg n, snd s1) (ins_cost (sg_be (n_seg n)) k) -> xcost (on_seg (n_id n) m) s1 (insert_work c (env_ty a) k).
Proof.
  intros W M Hk H. pose proof (made_seg _ _ _ _ _ _ _ _ (wc_map _ _ W) M) as P.
  destruct s1 as [c1 w1]. cbn [fst snd] in *. destruct M as (_ & _ & _ & _ & Ha & _).
  eapply cost_on_seg; [exact Ha|]. eapply cost_mono; [exact H|]. eapply prev_ins_cost; [apply W|exact P|exact Hk].
Qed.
Lemma made_wfs w c a R K w1 c1 n : wfc w c -> made w c a R K w1 c1 n ->
  wfs (n_seg n) /\ bsize (sg_be (n_seg n)) = length (elems c (env_ty a)).
Proof.
  intros W M. pose proof (made_seg _ _ _ _ _ _ _ _ (wc_map _ _ W) M) as P. split; [eapply prev_wfs; eauto|eapply prev_size; eauto; apply W].
Qed.

Lemma cost_c_emplace a x (c : coll V) w R K : let t := env_ty a in wfc w c -> cown w c R K ->
  xcost (c_emplace a x) (c, w) (11 + insert_work c t (length (elems c t))).
Proof.
  intros t W H. unfold c_emplace. apply cost_bind; [apply cost_find_or_make|]. intros s1 i Q.
  destruct (find_ok _ _ _ _ _ _ _ (wc_map _ _ W) H Q) as (n & -> & M). destruct (made_wfs _ _ _ _ _ _ _ _ W M) as (Ws & Z).
  rewrite <- (Nat.add_0_r (insert_work _ _ _)). apply cost_bind; [|intros; apply cost_mk_iter].
  eapply cost_made; [exact W|exact M|reflexivity|]. fold t in Z. unfold t in *. rewrite <- Z. apply cost_seg_push_back, Ws.
Qed.
Lemma cost_c_insert x (c : coll V) w R K : let t := env_ty (a_dyn x) in wfc w c -> cown w c R K -> arg_ok x ->
  xcost (c_insert x) (c, w) (11 + insert_work c t (length (elems c t))).
Proof.
  intros t W H Ok. unfold c_insert. apply cost_bind; [apply cost_map_iterator_for|]. intros s1 i Q.
  destruct (iterator_for_ok _ _ _ _ _ _ _ (wc_map _ _ W) H Ok Q) as (n & -> & M). destruct (made_wfs _ _ _ _ _ _ _ _ W M) as (Ws & Z).
  rewrite <- (Nat.add_0_r (insert_work _ _ _)). apply cost_bind; [|intros; apply cost_mk_iter].
  eapply cost_made; [exact W|exact M|reflexivity|]. fold t in Z. unfold t in *. rewrite <- Z. apply cost_seg_push_back, Ws.
Qed.

(** what a hint leads to *)
Lemma same_ok w (c : coll V) hint g a R K s1 n k s2 b : wfc w c -> cown w c R K -> located c hint g -> made w c a R K (snd s1) (fst s1) n ->
  hint_at c hint (env_ty a) k -> hint_safe c hint (env_ty a) -> same_node (it_map hint) (n_id n) s1 = Ok s2 b ->
  s2 = s1 /\ (b = true -> pos_at (nb n) (PBase (it_pos hint)) k /\ k < nsz n) /\ (b = false -> k = length (elems c (env_ty a))).
Proof.
  intros W H L M Ha Hs Q. split.
  - unfold same_node in Q. destruct (it_map hint); [|inversion Q; reflexivity]. unfold bind, getx in Q. destruct (node_at _ _); inversion Q; reflexivity.
  - revert Q. apply (fun P => wp_ok _ _ _ _ (fun _ b => (b = true -> pos_at (nb n) (PBase (it_pos hint)) k /\ k < nsz n) /\ (b = false -> k = length (elems c (env_ty a)))) (fun _ _ => True) P).
    destruct s1 as [c1 w1]. cbn [fst snd] in M.
    eapply wp_same_node; [exact W|exact H|exact L|exact M|exact Ha|exact Hs| |]; intros; split; intros; auto; discriminate.
Qed.
Lemma cost_c_emplace_hint hint g k a x (c : coll V) w R K : let t := env_ty a in wfc w c -> cown w c R K ->
  located c hint g -> hint_at c hint t k -> hint_safe c hint t -> k <= length (elems c t) ->
  xcost (c_emplace_hint hint a x) (c, w) (11 + insert_work c t k).
Proof.
  intros t W H L Ha Hs Hk. unfold c_emplace_hint. apply cost_bind; [apply cost_find_or_make|]. intros s1 i Q.
  destruct (find_ok _ _ _ _ _ _ _ (wc_map _ _ W) H Q) as (n & -> & M). destruct (made_wfs _ _ _ _ _ _ _ _ W M) as (Ws & Z). fold t in Z.
  apply cost_bind0; [apply cost_same_node|]. intros s2 b Q2.
  destruct (same_ok _ _ _ _ _ _ _ _ _ _ _ _ W H L M Ha Hs Q2) as (-> & Tr & Fa). fold t in Fa.
  rewrite <- (Nat.add_0_r (insert_work _ _ _)). apply cost_bind; [|intros; apply cost_mk_iter]. destruct b.
  - destruct (Tr eq_refl) as (P & _). eapply cost_made; [exact W|exact M|exact Hk|]. apply cost_seg_emplace; [exact Ws|exact P].
  - specialize (Fa eq_refl). rewrite <- Z in Fa. subst k. eapply cost_made; [exact W|exact M|exact Hk|]. apply cost_seg_push_back, Ws.
Qed.
Lemma cost_c_insert_hint hint g k x (c : coll V) w R K : let t := env_ty (a_dyn x) in wfc w c -> cown w c R K -> arg_ok x ->
  located c hint g -> hint_at c hint t k -> hint_safe c hint t -> k <= length (elems c t) ->
  xcost (c_insert_hint hint x) (c, w) (11 + insert_work c t k).
Proof.
  intros t W H Ok L Ha Hs Hk. unfold c_insert_hint. apply cost_bind; [apply cost_map_iterator_for|]. intros s1 i Q.
  destruct (iterator_for_ok _ _ _ _ _ _ _ (wc_map _ _ W) H Ok Q) as (n & -> & M). destruct (made_wfs _ _ _ _ _ _ _ _ W M) as (Ws & Z). fold t in Z.
  apply cost_bind0; [apply cost_same_node|]. intros s2 b Q2.
  destruct (same_ok _ _ _ _ _ _ _ _ _ _ _ _ W H L M Ha Hs Q2) as (-> & Tr & Fa). fold t in Fa.
  rewrite <- (Nat.add_0_r (insert_work _ _ _)). apply cost_bind; [|intros; apply cost_mk_iter]. destruct b.
  - destruct (Tr eq_refl) as (P & Hlt). eapply cost_made; [exact W|exact M|exact Hk|]. apply cost_seg_insert; [exact Ws|exact P|lia].
  - specialize (Fa eq_refl). rewrite <- Z in Fa. subst k. eapply cost_made; [exact W|exact M|exact Hk|]. apply cost_seg_push_back, Ws.
Qed.

(** positions in a segment *)
Lemma node_prev w (c : coll V) n i : wfc w c -> node_at (c_nodes c) i = Some n -> prev c (n_ty n) i (n_seg n) /\ wfs (n_seg n) /\ nsz n = length (elems c (n_ty n)).
Proof.
  intros W Ha. assert (P : prev c (n_ty n) i (n_seg n)) by (left; eauto). split; [exact P|]. split; [eapply prev_wfs; eauto|].
  exact (prev_size _ _ _ _ _ (wc_map _ _ W) P).
Qed.
Lemma cost_c_emplace_pos pos k a x (c : coll V) w : let t := env_ty a in wfc w c -> lpoints c pos t k ->
  xcost (c_emplace_pos pos a x) (c, w) (insert_work c t k).
Proof.
  intros t W Lp. unfold c_emplace_pos. destruct (lpoints_node _ _ _ _ Lp (wm_ids _ _ (wc_map _ _ W))) as (n & _ & Ha & _ & Et & Hp & Hk).
  destruct (node_prev _ _ _ _ W Ha) as (P & Ws & Z). rewrite Et in *.
  rewrite <- (Nat.add_0_r (insert_work _ _ _)). apply cost_bind; [|intros; apply cost_ret].
  eapply cost_on_seg; [exact Ha|]. eapply cost_mono; [apply cost_seg_emplace; [exact Ws|exact Hp]|]. eapply prev_ins_cost; [apply W|exact P|lia].
Qed.
Lemma cost_c_insert_pos pos k x (c : coll V) w : let t := env_ty (a_dyn x) in wfc w c -> lpoints c pos t k ->
  xcost (c_insert_pos pos x) (c, w) (insert_work c t k).
Proof.
  intros t W Lp. unfold c_insert_pos. destruct (lpoints_node _ _ _ _ Lp (wm_ids _ _ (wc_map _ _ W))) as (n & _ & Ha & _ & Et & Hp & Hk).
  destruct (node_prev _ _ _ _ W Ha) as (P & Ws & Z). rewrite Et in *.
  rewrite <- (Nat.add_0_r (insert_work _ _ _)). apply cost_bind; [|intros; apply cost_ret].
  eapply cost_on_seg; [exact Ha|]. eapply cost_mono; [apply cost_seg_insert; [exact Ws|exact Hp|exact Hk]|]. eapply prev_ins_cost; [apply W|exact P|lia].
Qed.

(** ** Capacity *)
Definition reserve_work (c : coll V) (n : nat) (t : tyid) : nat := if n <=? cap_of c t then 5 else 8 * length (elems c t) + 9.
Definition shrink_work (c : coll V) (t : tyid) : nat := 7 * length (elems c t) + 12.

(** the segments other than the one operated on *)
Lemma on_seg_other {A} i (m : M SW A) (s s' : CW) a j : on_seg i m s = Ok s' a -> j <> i -> node_at (c_nodes (fst s')) j = node_at (c_nodes (fst s)) j.
Proof.
  destruct s as [c w]. unfold on_seg. destruct (node_at (c_nodes c) i) as [n|] eqn:Ha; [|discriminate].
  destruct (m (n_seg n, w)) as [[sg w'] b|[sg w'] e|]; intros Q Hj; inversion Q; subst. cbn [fst c_nodes].
  rewrite (upd_at _ _ _ n) by exact Ha. apply Nat.eqb_neq in Hj. rewrite Hj. reflexivity.
Qed.
Definition at_seg (c : coll V) (f : segment V -> nat) (i : nat) : nat := match node_at (c_nodes c) i with Some n => f (n_seg n) | None => 0 end.
Lemma cost_for_each {A} (m : M SW A) f : (forall s w, wfs s -> xcost m (s, w) (f s)) -> forall ids (s : CW), NoDup ids ->
  (forall i n, In i ids -> node_at (c_nodes (fst s)) i = Some n -> wfs (n_seg n)) ->
  xcost (for_each_node ids m) s (list_sum (map (at_seg (fst s) f) ids)).
Proof.
  intros Hm ids. induction ids as [|i ids IH]; intros s ND Hw; [apply cost_ret|].
  cbn [for_each_node map]. change (list_sum (?x :: ?l)) with (x + list_sum l). inversion ND as [|? ? Hni ND']; subst.
  apply cost_bind.
  - destruct s as [c w]. unfold at_seg at 1. cbn [fst]. destruct (node_at (c_nodes c) i) as [n|] eqn:Ha.
    + eapply cost_on_seg; [exact Ha|]. apply Hm. apply (Hw i n); [left; reflexivity|exact Ha].
    + unfold cost, on_seg. rewrite Ha. exact I.
  - intros s' a Q. assert (Eq : forall j, In j ids -> node_at (c_nodes (fst s')) j = node_at (c_nodes (fst s)) j).
    { intros j Hj. eapply on_seg_other; [exact Q|]. intros ->. contradiction. }
    replace (list_sum (map (at_seg (fst s) f) ids)) with (list_sum (map (at_seg (fst s') f) ids)).
    + apply IH; [exact ND'|]. intros j n Hj Ha. rewrite Eq in Ha by exact Hj. apply (Hw j n); [right; exact Hj|exact Ha].
    + f_equal. apply map_ext_in. intros j Hj. unfold at_seg. rewrite Eq by exact Hj. reflexivity.
Qed.
Lemma for_each_all w (c : coll V) f g : wfc w c -> (forall n, In n (c_nodes c) -> f (n_seg n) = g (n_ty n)) ->
  map (at_seg c f) (all_ids c) = map g (types c).
Proof.
  intros W H. unfold all_ids. rewrite types_nodes, !map_map. apply map_ext_in. intros n Hn. unfold at_seg.
  rewrite (node_at_some _ n) by (auto; apply W). auto.
Qed.
Lemma all_wfs w (c : coll V) i n : wfc w c -> node_at (c_nodes c) i = Some n -> wfs (n_seg n).
Proof. intros W Ha. apply (node_prev _ _ _ _ W Ha). Qed.
Lemma node_cap w (c : coll V) n : wfc w c -> In n (c_nodes c) -> cap_of c (n_ty n) = bcap (nb n) /\ length (elems c (n_ty n)) = nsz n.
Proof.
  intros W Hn. assert (Ha : node_at (c_nodes c) (n_id n) = Some n) by (apply node_at_some; auto; apply W).
  destruct (node_prev _ _ _ _ W Ha) as (P & _ & Z). split; [|auto]. apply (prev_cap _ _ _ _ _ (wc_map _ _ W) P). rewrite types_nodes. apply in_map, Hn.
Qed.
Lemma cost_c_reserve_all n (c : coll V) w : wfc w c -> xcost (c_reserve_all n) (c, w) (list_sum (map (reserve_work c n) (types c))).
Proof.
  intros W. unfold c_reserve_all. apply cost_bind_getx. cbn [fst].
  rewrite <- (for_each_all w c (fun s => if n <=? bcap (sg_be s) then 5 else 8 * bsize (sg_be s) + 9)); [|exact W|].
  - apply (cost_for_each _ _ (fun s w' => cost_seg_reserve n s w') _ (c, w)); [apply W|]. intros i m _. cbn [fst]. apply (all_wfs w); exact W.
  - intros m Hm. destruct (node_cap _ _ _ W Hm) as (Q1 & Q2). unfold reserve_work. rewrite Q1, Q2. reflexivity.
Qed.
Lemma cost_c_shrink_all (c : coll V) w : wfc w c -> xcost c_shrink_all (c, w) (list_sum (map (shrink_work c) (types c))).
Proof.
  intros W. unfold c_shrink_all. apply cost_bind_getx. cbn [fst].
  rewrite <- (for_each_all w c (fun s => 7 * bsize (sg_be s) + 12)); [|exact W|].
  - apply (cost_for_each _ _ (fun s w' => cost_seg_shrink s w') _ (c, w)); [apply W|]. intros i m _. cbn [fst]. apply (all_wfs w); exact W.
  - intros m Hm. destruct (node_cap _ _ _ W Hm) as (Q1 & Q2). unfold shrink_work. rewrite Q2. reflexivity.
Qed.
Lemma by_info_node a (c : coll V) w s' i : wfc w c -> map_iterator_by_info a (c, w) = Ok s' i ->
  s' = (c, w) /\ exists n, In n (c_nodes c) /\ i = n_id n /\ node_at (c_nodes c) (n_id n) = Some n /\ n_ty n = env_ty a.
Proof.
  intros W Q. split; [exact (by_info_ok _ _ _ _ Q)|]. revert Q.
  apply (fun P => wp_ok _ _ _ _ (fun _ j => exists n, In n (c_nodes c) /\ j = n_id n /\ node_at (c_nodes c) (n_id n) = Some n /\ n_ty n = env_ty a) (fun _ _ => True) P).
  eapply wp_map_iterator_by_info; [apply W| |auto]. intros n ? ? ?. exists n. auto.
Qed.
Lemma cost_c_reserve_info a n (c : coll V) w : wfc w c -> xcost (c_reserve_info a n) (c, w) (reserve_work c n (env_ty a)).
Proof.
  intros W. unfold c_reserve_info. apply cost_bind0; [apply cost_by_info|]. intros s' i Q.
  destruct (by_info_node _ _ _ _ _ W Q) as (-> & m & Hm & -> & Ha & Et). eapply cost_on_seg; [exact Ha|].
  destruct (node_cap _ _ _ W Hm) as (Q1 & Q2). unfold reserve_work. rewrite <- Et, Q1, Q2. apply cost_seg_reserve. eapply all_wfs; eauto.
Qed.
Lemma cost_c_shrink_info a (c : coll V) w : wfc w c -> xcost (c_shrink_info a) (c, w) (shrink_work c (env_ty a)).
Proof.
  intros W. unfold c_shrink_info. apply cost_bind0; [apply cost_by_info|]. intros s' i Q.
  destruct (by_info_node _ _ _ _ _ W Q) as (-> & m & Hm & -> & Ha & Et). eapply cost_on_seg; [exact Ha|].
  destruct (node_cap _ _ _ W Hm) as (Q1 & Q2). unfold shrink_work. rewrite <- Et, Q2. apply cost_seg_shrink. eapply all_wfs; eauto.
Qed.
Lemma cost_c_reserve_type a n (c : coll V) w R K : let t := env_ty a in wfc w c -> cown w c R K ->
  xcost (c_reserve_type a n) (c, w) (11 + reserve_work c n t).
Proof.
  intros t W H. unfold c_reserve_type. apply cost_bind; [apply cost_find_or_make|]. intros s1 i Q.
  destruct (find_ok _ _ _ _ _ _ _ (wc_map _ _ W) H Q) as (m & -> & M). destruct (made_wfs _ _ _ _ _ _ _ _ W M) as (Ws & Z). fold t in Z.
  pose proof (made_seg _ _ _ _ _ _ _ _ (wc_map _ _ W) M) as P. fold t in P. destruct s1 as [c1 w1]. cbn [fst snd] in *. destruct M as (_ & _ & _ & _ & Ha & _).
  eapply cost_on_seg; [exact Ha|]. apply cost_check. intros _. eapply cost_mono; [apply cost_seg_reserve, Ws|].
  unfold reserve_work. rewrite Z. destruct (in_dec Nat.eq_dec t (types c)) as [I|N].
  - rewrite (prev_cap _ _ _ _ _ (wc_map _ _ W) P I). lia.
  - assert (Cz : cap_of c t = 0).
    { unfold cap_of. rewrite seg_at_none by (rewrite <- types_nodes; exact N). reflexivity. }
    rewrite Cz. destruct (n <=? 0) eqn:Q0.
    + apply Nat.leb_le in Q0. replace n with 0 by lia. cbn. lia.
    + destruct (n <=? bcap (sg_be (n_seg m))); lia.
Qed.

(** ** Erasure *)
Lemma pays_c_erase pos t k (c : coll V) w R K : wfc w c -> cown w c R K -> points c pos t k ->
  xpays muc (c_erase pos) (c, w) (length (elems c t) - k).
Proof.
  intros W H Hp. destruct (points_split _ _ _ _ _ _ _ W H Hp) as (l1 & n & l2 & En & Et & Hk & -> & _).
  assert (Hn : In n (c_nodes c)) by (rewrite En; apply in_or_app; right; left; auto).
  assert (Ha : node_at (c_nodes c) (n_id n) = Some n) by (apply node_at_some; auto; apply W).
  destruct (node_prev _ _ _ _ W Ha) as (_ & Ws & Z). rewrite Et in Z. unfold c_erase. cbn [it_map it_pos].
  rewrite <- (Nat.add_0_r (_ - k)). apply pays_bind; [|intros; apply pays_mk_iter].
  rewrite <- Z. eapply pays_on_seg; [exact Ha|]. apply pays_seg_erase; [exact Ws|left; reflexivity|exact Hk].
Qed.
Lemma pays_c_erase_local pos t k (c : coll V) w : wfc w c -> lpoints c pos t k -> k < length (elems c t) ->
  xpays muc (c_erase_local pos) (c, w) (length (elems c t) - k).
Proof.
  intros W Lp Hlt. destruct (lpoints_node _ _ _ _ Lp (wm_ids _ _ (wc_map _ _ W))) as (n & _ & Ha & _ & Et & Hp & Hk).
  destruct (node_prev _ _ _ _ W Ha) as (_ & Ws & Z). rewrite Et in Z. unfold c_erase_local.
  rewrite <- (Nat.add_0_r (_ - k)). apply pays_bind; [|intros; apply pays_ret].
  rewrite <- Z in *. eapply pays_on_seg; [exact Ha|]. apply pays_seg_erase; [exact Ws|exact Hp|exact Hlt].
Qed.
Lemma pays_c_erase_local_range first last t f l (c : coll V) w : wfc w c -> lpoints c first t f -> lpoints c last t l ->
  xpays muc (c_erase_local_range first last) (c, w) (length (elems c t) - l).
Proof.
  intros W Lp Lq. destruct (lpoints_node _ _ _ _ Lp (wm_ids _ _ (wc_map _ _ W))) as (n & _ & Ha & _ & Et & Hp & Hk).
  destruct (lpoints_node _ _ _ _ Lq (wm_ids _ _ (wc_map _ _ W))) as (n' & _ & Ha' & _ & Et' & Hp' & Hk').
  destruct (node_prev _ _ _ _ W Ha) as (_ & Ws & Z). rewrite Et in Z. unfold c_erase_local_range.
  destruct (Nat.eqb_spec (li_map first) (li_map last)) as [Q|Q]; [|apply pays_ub]. rewrite <- Q in Ha'. assert (n' = n) by congruence. subst n'.
  rewrite <- (Nat.add_0_r (_ - l)). apply pays_bind; [|intros; apply pays_ret].
  rewrite <- Z in *. eapply pays_on_seg; [exact Ha|]. apply pays_seg_erase_range with (f := f); auto.
Qed.
Lemma pays_c_clear_for ids : forall (s : CW), NoDup ids -> (forall i n, In i ids -> node_at (c_nodes (fst s)) i = Some n -> wfs (n_seg n)) ->
  xpays muc (for_each_node ids seg_clear) s 0.
Proof.
  induction ids as [|i ids IH]; intros s ND Hw; [apply pays_ret|]. cbn [for_each_node]. inversion ND as [|? ? Hni ND']; subst. apply pays_bind0.
  - destruct s as [c w]. destruct (node_at (c_nodes c) i) as [n|] eqn:Ha.
    + eapply pays_on_seg; [exact Ha|]. apply pays_seg_clear. apply (Hw i n); [left; reflexivity|exact Ha].
    + unfold pays, on_seg. rewrite Ha. exact I.
  - intros s' a Q. apply IH; [exact ND'|]. intros j n Hj Ha. rewrite (on_seg_other _ _ _ _ _ j Q) in Ha by (intros ->; contradiction).
    apply (Hw j n); [right; exact Hj|exact Ha].
Qed.
Lemma pays_c_clear (c : coll V) w : wfc w c -> xpays muc c_clear (c, w) 0.
Proof.
  intros W. unfold c_clear. apply pays_bind_getx. cbn [fst]. apply pays_c_clear_for; [apply W|]. intros i n _. cbn [fst]. apply (all_wfs w); exact W.
Qed.
Lemma pays_c_clear_info a (c : coll V) w : wfc w c -> xpays muc (c_clear_info a) (c, w) 0.
Proof.
  intros W. unfold c_clear_info. apply pays_bind0.
  - unfold map_iterator_by_info. apply pays_bind_getx. destruct (tim_find_const _ _); [apply pays_ret|apply pays_throw].
  - intros s' i Q. destruct (by_info_node _ _ _ _ _ W Q) as (-> & m & Hm & -> & Ha & Et). eapply pays_on_seg; [exact Ha|].
    apply pays_seg_clear. eapply all_wfs; eauto.
Qed.
Lemma pays_clear_until ids lseg : forall (s : CW), NoDup ids -> (forall i n, In i ids -> node_at (c_nodes (fst s)) i = Some n -> wfs (n_seg n)) ->
  xpays muc (clear_until ids lseg) s 0.
Proof.
  induction ids as [|i ids IH]; intros s ND Hw; cbn [clear_until]; [destruct lseg; [apply pays_ub|apply pays_ret]|].
  destruct (mapit_eqb _ _); [apply pays_ret|]. inversion ND as [|? ? Hni ND']; subst. apply pays_bind0.
  - destruct s as [c w]. destruct (node_at (c_nodes c) i) as [n|] eqn:Ha.
    + eapply pays_on_seg; [exact Ha|]. apply pays_seg_clear. apply (Hw i n); [left; reflexivity|exact Ha].
    + unfold pays, on_seg. rewrite Ha. exact I.
  - intros s' a Q. apply IH; [exact ND'|]. intros j n Hj Ha. rewrite (on_seg_other _ _ _ _ _ j Q) in Ha by (intros ->; contradiction).
    apply (Hw j n); [right; exact Hj|exact Ha].
Qed.
Lemma clear_until_other ids li : forall (s s' : CW) u, clear_until ids (Some li) s = Ok s' u -> node_at (c_nodes (fst s')) li = node_at (c_nodes (fst s)) li.
Proof.
  induction ids as [|i ids IH]; intros s s' u; cbn [clear_until]; [discriminate|]. destruct (mapit_eqb (Some i) (Some li)) eqn:Qe.
  - intros Q; inversion Q; reflexivity.
  - intros Q. unfold bind in Q. destruct (on_seg i seg_clear s) as [s1 u1|s1 e1|] eqn:Q1; try discriminate. rewrite (IH _ _ _ Q).
    cbn in Qe. apply Nat.eqb_neq in Qe. apply (on_seg_other _ _ _ _ _ li Q1). congruence.
Qed.
(** the distance from a position to the end of its segment *)
Definition behind (c : coll V) (it : iter) (d : nat) : Prop :=
  (it_map it = None /\ d = 0) \/ exists t k, points c it t k /\ d = length (elems c t) - k.
Lemma nodes_from_ids (ns : list (node V)) i n l : nodes_from ns i = Some (n :: l) -> NoDup (map n_id ns) -> n_id n = i /\ NoDup (map n_id l) /\ ~ In i (map n_id l).
Proof.
  induction ns as [|m ns IH]; cbn [nodes_from]; [discriminate|]. intros Q ND. cbn [map] in ND. inversion ND as [|? ? H1 H2]; subst.
  destruct (Nat.eqb_spec (n_id m) i) as [Ei|Ei]; [|auto]. inversion Q; subst. auto.
Qed.
Lemma pays_c_erase_range first last i j d (c : coll V) w R K : wfc w c -> cown w c R K -> located c first i -> located c last j -> behind c last d ->
  xpays muc (c_erase_range first last) (c, w) d.
Proof.
  intros W H Lf Ll Bd. unfold c_erase_range.
  assert (Nd : forall it t k, points c it t k -> exists n, In n (c_nodes c) /\ node_at (c_nodes c) (n_id n) = Some n /\ it_map it = Some (n_id n) /\
    pos_at (nb n) (PBase (it_pos it)) k /\ wfs (n_seg n) /\ nsz n = length (elems c t) /\ k < nsz n).
  { intros it t k Hp. destruct (points_split _ _ _ _ _ _ _ W H Hp) as (l1 & n & l2 & En & Et & Hk & -> & _).
    assert (Hn : In n (c_nodes c)) by (rewrite En; apply in_or_app; right; left; auto).
    assert (Ha : node_at (c_nodes c) (n_id n) = Some n) by (apply node_at_some; auto; apply W).
    destruct (node_prev _ _ _ _ W Ha) as (_ & Ws & Z). rewrite Et in Z. exists n. csplit; auto. left; reflexivity. }
  assert (Fn : it_map first = None \/ exists t k, points c first t k).
  { destruct Lf as [[-> _]|(t & k & Hp & _)]; [left; reflexivity|right; eauto]. }
  destruct (mapit_eqb (it_map first) (it_map last)) eqn:Qm; cbn [negb].
  - destruct (it_eq first last); [eapply pays_mono; [apply pays_mk_iter|lia]|]. destruct Fn as [Fn|(t & k & Hp)]; [rewrite Fn; apply pays_ub|].
    destruct (Nd _ _ _ Hp) as (n & Hn & Ha & Em & Pa & Ws & Z & Hk). rewrite Em in *.
    destruct Bd as [(El & _)|(t' & k' & Hp' & ->)]; [rewrite El in Qm; discriminate|].
    destruct (Nd _ _ _ Hp') as (n' & Hn' & Ha' & Em' & Pa' & _ & Z' & Hk'). rewrite Em' in Qm. cbn in Qm. apply Nat.eqb_eq in Qm.
    assert (n' = n) by congruence. subst n'.
    rewrite <- (Nat.add_0_r (_ - k')). apply pays_bind; [|intros; apply pays_mk_iter].
    rewrite <- Z'. eapply pays_on_seg; [exact Ha|]. apply pays_seg_erase_range with (f := k); auto; lia.
  - destruct Fn as [Fn|(t & k & Hp)]; [rewrite Fn; apply pays_ub|].
    destruct (Nd _ _ _ Hp) as (n & Hn & Ha & Em & Pa & Ws & Z & Hk). rewrite Em in *.
    apply pays_bind0; [eapply pays_on_seg; [exact Ha|]; apply pays_seg_till_end with (f := k); exact Pa|].
    intros s1 p Q1. apply pays_bind_getx.
    assert (Ids : map n_id (c_nodes (fst s1)) = map n_id (c_nodes c)).
    { unfold on_seg in Q1. rewrite Ha in Q1. destruct (seg_erase_till_end _ _) as [[sg w1] b|[sg w1] e|]; inversion Q1. cbn [fst c_nodes]. apply upd_ids. }
    assert (ND : NoDup (map n_id (c_nodes (fst s1)))) by (rewrite Ids; apply W).
    destruct (nodes_from (c_nodes (fst s1)) (n_id n)) as [[|m ns]|] eqn:Qn; [apply pays_ub| |apply pays_ub].
    destruct (nodes_from_ids _ _ _ _ Qn ND) as (_ & ND' & Nin).
    apply pays_bind0.
    { apply pays_clear_until; [exact ND'|]. intros x y Hx Hy. rewrite (on_seg_other _ _ _ _ _ x Q1) in Hy by (intros ->; contradiction). eapply all_wfs; eauto. }
    intros s2 u Q2. destruct (it_map last) as [li|] eqn:El.
    + destruct Bd as [(El' & _)|(t' & k' & Hp' & ->)]; [congruence|].
      destruct (Nd _ _ _ Hp') as (n' & Hn' & Ha' & Em' & Pa' & _ & Z' & Hk'). rewrite El in Em'. inversion Em'; subst li.
      rewrite <- (Nat.add_0_r (_ - k')). apply pays_bind; [|intros; apply pays_mk_iter].
      assert (Ha2 : node_at (c_nodes (fst s2)) (n_id n') = Some n').
      { rewrite (clear_until_other _ _ _ _ _ Q2), (on_seg_other _ _ _ _ _ (n_id n') Q1); [exact Ha'|]. cbn in Qm. apply Nat.eqb_neq in Qm. congruence. }
      rewrite <- Z'. destruct s2 as [c2 w2]. eapply pays_on_seg; [exact Ha2|]. apply pays_seg_from_begin. exact Pa'.
    + apply pays_bind_getx. eapply pays_mono; [apply pays_ret|lia].
Qed.

End CostC.
