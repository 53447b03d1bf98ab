(** * The algorithms that run a std algorithm or a loop on every piece *)

From Coq Require Import List Arith Lia Bool Permutation.
From Verif Require Import Base Vec Backend Segment Coll StdAlg Algo Spec SpecAlg ProofBase ProofVec ProofBackend ProofOps ProofOps2 ProofSeg ProofMap ProofView ProofAlgo.
Import ListNotations.

(** Rewriting with [same_as _ _ eq] below binds. *)
Ltac mstep := first
  [ apply same_bind_eq; intro
  | eapply same_eq_l; [apply bind_assoc|]
  | eapply same_eq_r; [apply same_sym_eq, bind_assoc|] ].

(** ** Standard algorithms on concatenations *)

Section StdApp.
Context {S X : Type}.
Implicit Types (p : X -> M S bool) (l : list X).

Lemma all_of_app p l1 l2 :
  same_as (std_all_of p (l1 ++ l2)) (b <- std_all_of p l1 ;; if b then std_all_of p l2 else ret false) eq.
Proof.
  induction l1 as [|x l1 IH]; simpl; [apply same_eq|].
  eapply same_eq_r; [apply same_sym_eq, bind_assoc|]. apply same_bind_eq. intros [|]; auto. apply same_eq.
Qed.
Lemma any_of_app p l1 l2 :
  same_as (std_any_of p (l1 ++ l2)) (b <- std_any_of p l1 ;; if b then ret true else std_any_of p l2) eq.
Proof.
  induction l1 as [|x l1 IH]; simpl; [apply same_eq|].
  eapply same_eq_r; [apply same_sym_eq, bind_assoc|]. apply same_bind_eq. intros [|]; auto. apply same_eq.
Qed.
Lemma none_of_app p l1 l2 :
  same_as (std_none_of p (l1 ++ l2)) (b <- std_none_of p l1 ;; if b then std_none_of p l2 else ret false) eq.
Proof.
  induction l1 as [|x l1 IH]; simpl; [apply same_eq|].
  eapply same_eq_r; [apply same_sym_eq, bind_assoc|]. apply same_bind_eq. intros [|]; auto. apply same_eq.
Qed.
Lemma for_each_app (f : X -> M S unit) l1 l2 :
  same_as (std_for_each f (l1 ++ l2)) (std_for_each f l1 ;; std_for_each f l2) eq.
Proof.
  induction l1 as [|x l1 IH]; simpl; [apply same_eq|].
  eapply same_eq_r; [apply same_sym_eq, bind_assoc|]. apply same_bind_eq. intros []. auto.
Qed.
Lemma count_if_app p l1 l2 :
  same_as (std_count_if p (l1 ++ l2)) (n <- std_count_if p l1 ;; m <- std_count_if p l2 ;; ret (n + m)) eq.
Proof.
  induction l1 as [|x l1 IH].
  - simpl. apply same_sym_eq, bind_ret_r.
  - cbn [app std_count_if]. eapply same_eq_r; [apply same_sym_eq, bind_assoc|]. apply same_bind_eq. intros b.
    eapply same_eq_r; [apply same_sym_eq, bind_assoc|].
    eapply same_eq_l; [eapply same_bind; [exact IH|intros a a' ->; apply same_eq]|].
    eapply same_eq_l; [apply bind_assoc|]. apply same_bind_eq. intros n. rewrite bind_ret_l.
    eapply same_eq_l; [apply bind_assoc|]. apply same_bind_eq. intros m. rewrite bind_ret_l.
    apply same_ret. destruct b; lia.
Qed.

(** An algorithm that gives an index, applied to one part after the other. *)
Definition idx_app {T} (alg : T -> list X -> M S (T * nat)) : Prop :=
  forall t l1 l2, same_as (alg t (l1 ++ l2))
    (r <- alg t l1 ;;
     if snd r =? length l1 then r2 <- alg (fst r) l2 ;; ret (fst r2, length l1 + snd r2) else ret r) eq.
Definition idx_le {T} (alg : T -> list X -> M S (T * nat)) : Prop :=
  forall t l, same_as (alg t l) (alg t l) (fun r r' => r = r' /\ snd r <= length l).
(** ... without state *)
Definition idx_app0 (alg : list X -> M S nat) : Prop :=
  forall l1 l2, same_as (alg (l1 ++ l2))
    (k <- alg l1 ;; if k =? length l1 then k2 <- alg l2 ;; ret (length l1 + k2) else ret k) eq.
Definition idx_le0 (alg : list X -> M S nat) : Prop :=
  forall l, same_as (alg l) (alg l) (fun k k' => k = k' /\ k <= length l).

(** Algorithms that go on while some test of the element fails. *)
Fixpoint go (q : X -> M S bool) (l : list X) : M S nat :=
  match l with
  | [] => ret 0
  | x :: l' => b <- q x ;; if b then ret 0 else k <- go q l' ;; ret (1 + k)
  end.
Lemma go_app q : idx_app0 (go q).
Proof.
  intros l1 l2. induction l1 as [|x l1 IH].
  - simpl. eapply same_eq_r; [|apply same_sym_eq, bind_ret_r]. apply same_eq.
  - cbn [app go length]. eapply same_eq_r; [apply same_sym_eq, bind_assoc|]. apply same_bind_eq. intros [|].
    + rewrite bind_ret_l. apply same_eq.
    + eapply same_eq_r; [apply same_sym_eq, bind_assoc|].
      eapply same_eq_l; [eapply same_bind; [exact IH|intros a a' ->; apply same_eq]|].
      eapply same_eq_l; [apply bind_assoc|]. apply same_bind_eq. intros k. rewrite bind_ret_l.
      change (1 + k =? Datatypes.S (length l1)) with (k =? length l1).
      destruct (k =? length l1); [|rewrite bind_ret_l; apply same_eq].
      eapply same_eq_l; [apply bind_assoc|]. apply same_bind_eq. intros m. rewrite bind_ret_l. apply same_eq.
Qed.
Lemma go_le q : idx_le0 (go q).
Proof.
  intros l. induction l as [|x l IH]; simpl; [apply same_ret; auto|].
  apply same_bind_eq. intros [|]; [apply same_ret; split; auto; lia|].
  eapply same_bind; [exact IH|]. intros a a' [-> L]. apply same_ret. split; auto. lia.
Qed.
Lemma idx_app0_ext (alg alg' : list X -> M S nat) :
  (forall l, same_as (alg l) (alg' l) eq) -> idx_app0 alg' -> idx_app0 alg.
Proof.
  intros H A l1 l2. eapply same_eq_l; [apply H|]. eapply same_eq_l; [apply A|].
  eapply same_bind; [apply same_sym_eq, H|]. intros a a' ->. destruct (_ =? _); [|apply same_eq].
  eapply same_bind; [apply same_sym_eq, H|]. intros b b' ->. apply same_eq.
Qed.
Lemma idx_le0_ext (alg alg' : list X -> M S nat) :
  (forall l, same_as (alg l) (alg' l) eq) -> idx_le0 alg' -> idx_le0 alg.
Proof.
  intros H A l. eapply same_eq_l; [apply H|]. eapply same_eq_r; [apply same_sym_eq, H|]. apply A.
Qed.
Lemma find_if_go p l : same_as (std_find_if p l) (go p l) eq.
Proof.
  induction l as [|x l IH]; simpl; [apply same_eq|]. apply same_bind_eq. intros [|]; [apply same_eq|].
  eapply same_bind; [exact IH|]. intros a a' ->. apply same_eq.
Qed.
Lemma find_if_not_go p l : same_as (std_find_if_not p l) (go (fun x => b <- p x ;; ret (negb b)) l) eq.
Proof.
  induction l as [|x l IH]; simpl; [apply same_eq|].
  eapply same_eq_r; [apply same_sym_eq, bind_assoc|]. apply same_bind_eq. intros [|]; rewrite bind_ret_l; simpl; [|apply same_eq].
  eapply same_bind; [exact IH|]. intros a a' ->. apply same_eq.
Qed.
Lemma find_first_of_go {Y} (q : X -> Y -> M S bool) ys l :
  same_as (std_find_first_of q ys l) (go (fun x => std_any_of2 q x ys) l) eq.
Proof.
  induction l as [|x l IH]; simpl; [apply same_eq|]. apply same_bind_eq. intros [|]; [apply same_eq|].
  eapply same_bind; [exact IH|]. intros a a' ->. apply same_eq.
Qed.

(** Output: the state after the first part is where the second part starts. *)
Definition out_app {T} (alg : T -> list X -> M S T) : Prop :=
  (forall t, same_as (alg t []) (ret t) eq) /\
  forall t l1 l2, same_as (alg t (l1 ++ l2)) (t' <- alg t l1 ;; alg t' l2) eq.

Lemma copy_out (put : nat -> X -> M S unit) : out_app (fun o l => std_copy put l o).
Proof.
  split; [intros; apply same_eq|]. intros o l1. revert o. induction l1 as [|x l1 IH]; intros o l2; cbn [app std_copy]; [apply same_eq|].
  eapply same_eq_r; [apply same_sym_eq, bind_assoc|]. apply same_bind_eq. intros []. apply IH.
Qed.
Lemma copy_if_out p (put : nat -> X -> M S unit) : out_app (fun o l => std_copy_if p put l o).
Proof.
  split; [intros; apply same_eq|]. intros o l1. revert o. induction l1 as [|x l1 IH]; intros o l2; cbn [app std_copy_if]; [apply same_eq|].
  eapply same_eq_r; [apply same_sym_eq, bind_assoc|]. apply same_bind_eq. intros [|]; [|apply IH].
  eapply same_eq_r; [apply same_sym_eq, bind_assoc|]. apply same_bind_eq. intros []. apply IH.
Qed.
Lemma transform_out {O} (op : X -> M S O) put : out_app (fun o l => std_transform op put l o).
Proof.
  split; [intros; apply same_eq|]. intros o l1. revert o. induction l1 as [|x l1 IH]; intros o l2; cbn [app std_transform]; [apply same_eq|].
  eapply same_eq_r; [apply same_sym_eq, bind_assoc|]. apply same_bind_eq. intros r.
  eapply same_eq_r; [apply same_sym_eq, bind_assoc|]. apply same_bind_eq. intros []. apply IH.
Qed.
Lemma remove_copy_if_out p (put : nat -> X -> M S unit) : out_app (fun o l => std_remove_copy_if p put l o).
Proof.
  split; [intros; apply same_eq|]. intros o l1. revert o. induction l1 as [|x l1 IH]; intros o l2; cbn [app std_remove_copy_if]; [apply same_eq|].
  eapply same_eq_r; [apply same_sym_eq, bind_assoc|]. apply same_bind_eq. intros [|]; [apply IH|].
  eapply same_eq_r; [apply same_sym_eq, bind_assoc|]. apply same_bind_eq. intros []. apply IH.
Qed.
Lemma partition_copy_out p (put1 put2 : nat -> X -> M S unit) : out_app (fun o l => std_partition_copy p put1 put2 l o).
Proof.
  split; [intros; apply same_eq|]. intros o l1. revert o. induction l1 as [|x l1 IH]; intros o l2; cbn [app std_partition_copy]; [apply same_eq|].
  eapply same_eq_r; [apply same_sym_eq, bind_assoc|]. apply same_bind_eq. intros [|];
    (eapply same_eq_r; [apply same_sym_eq, bind_assoc|]; apply same_bind_eq; intros []; apply IH).
Qed.
End StdApp.

Section PAlgo2.
Context {V : Type} {E : Env V} {S : Type}.

Notation NL := (list (node V)).
Notation nb n := (sg_be (n_seg n)).
Notation nsz n := (bsize (sg_be (n_seg n))).
Notation iat c i := (at_ (c_nodes c) i).

Lemma lift_some {A B} (a : A) (f : A -> M S B) : bind (lift (Some a)) f = f a.
Proof. reflexivity. Qed.

(** ** all_of, any_of, none_of, count *)

(** ** The hand-written loops of algorithm.hpp on one piece *)

Lemma mismatch_alg_app {Y} bounded (p : view V -> Y -> M S bool) : idx_app (mismatch_alg bounded p).
Proof.
  intros ys l1 l2. revert ys. induction l1 as [|x l1 IH]; intros ys.
  - cbn [app mismatch_alg length]. rewrite bind_ret_l. cbn [fst snd Nat.eqb]. eapply same_eq_l; [apply same_sym_eq, bind_ret_r|].
    apply same_bind_eq. intros [u k]. apply same_eq.
  - cbn [app mismatch_alg length]. destruct ys as [|y ys].
    + destruct bounded; apply same_eq.
    + eapply same_eq_r; [apply same_sym_eq, bind_assoc|]. apply same_bind_eq. intros [|]; [|apply same_eq].
      eapply same_eq_r; [apply same_sym_eq, bind_assoc|].
      eapply same_eq_l; [eapply same_bind; [apply IH|intros a a' ->; apply same_eq]|].
      eapply same_eq_l; [apply bind_assoc|]. apply same_bind_eq. intros [u k]. rewrite bind_ret_l. cbn [fst snd].
      change (1 + k =? Datatypes.S (length l1)) with (k =? length l1).
      destruct (k =? length l1); [|rewrite bind_ret_l; apply same_eq].
      eapply same_eq_l; [apply bind_assoc|]. apply same_bind_eq. intros m. rewrite bind_ret_l. apply same_eq.
Qed.
Lemma mismatch_alg_spec {Y} bounded (p : view V -> Y -> M S bool) ys l :
  same_as (mismatch_alg bounded p ys l) ((if bounded then std_mismatch_to else std_mismatch) p l ys)
    (fun r k => r = (skipn k ys, k) /\ k <= length l /\ k <= length ys).
Proof.
  revert ys. induction l as [|x l IH]; intros [|y ys]; cbn [mismatch_alg].
  - destruct bounded; apply same_ret; simpl; auto.
  - destruct bounded; apply same_ret; simpl; split; auto; lia.
  - destruct bounded; [apply same_ret|apply same_ub]; simpl; split; auto; lia.
  - replace ((if bounded then std_mismatch_to else std_mismatch) p (x :: l) (y :: ys))
      with (b <- p x y ;; if b then k <- (if bounded then std_mismatch_to else std_mismatch) p l ys ;; ret (1 + k) else ret 0)
      by (destruct bounded; reflexivity).
    apply same_bind_eq. intros [|]; [|apply same_ret; simpl; split; auto; lia].
    eapply same_bind; [apply IH|]. intros r k (-> & H1 & H2). apply same_ret. simpl. split; auto. lia.
Qed.
Lemma mismatch_alg_le {Y} bounded (p : view V -> Y -> M S bool) : idx_le (mismatch_alg bounded p).
Proof.
  intros ys l. eapply same_trans; [apply mismatch_alg_spec|apply same_sym, mismatch_alg_spec|].
  intros r k r' (-> & H1 & H2) (-> & _). auto.
Qed.
Lemma equal_alg_app {Y} bounded (p : view V -> Y -> M S bool) ys l1 l2 :
  same_as (equal_alg bounded p ys (l1 ++ l2))
    (r <- equal_alg bounded p ys l1 ;; if snd r then equal_alg bounded p (fst r) l2 else ret (fst r, false)) eq.
Proof.
  revert ys. induction l1 as [|x l1 IH]; intros ys; cbn [app equal_alg].
  - rewrite bind_ret_l. apply same_eq.
  - destruct ys as [|y ys].
    + destruct bounded; apply same_eq.
    + eapply same_eq_r; [apply same_sym_eq, bind_assoc|]. apply same_bind_eq. intros [|]; [apply IH|].
      rewrite bind_ret_l. apply same_eq.
Qed.
Lemma equal_alg_spec {Y} bounded (p : view V -> Y -> M S bool) ys l :
  same_as (r <- equal_alg bounded p ys l ;;
           ret (if snd r then (if bounded then length (fst r) =? 0 else true) else false))
    ((if bounded then std_equal_to else std_equal) p l ys) eq.
Proof.
  revert ys. induction l as [|x l IH]; intros [|y ys]; cbn [equal_alg].
  - destruct bounded; apply same_ret; auto.
  - destruct bounded; apply same_ret; auto.
  - destruct bounded; [apply same_ret; auto|apply same_ub].
  - replace ((if bounded then std_equal_to else std_equal) p (x :: l) (y :: ys))
      with (b <- p x y ;; if b then (if bounded then std_equal_to else std_equal) p l ys else ret false)
      by (destruct bounded; reflexivity).
    eapply same_eq_l; [apply bind_assoc|]. apply same_bind_eq. intros [|]; [apply IH|].
    apply same_ret. auto.
Qed.
Lemma replace_copy_out {N} (p : view V -> M S bool) (new : N) put : out_app (S := S) (replace_copy_alg p new put).
Proof.
  split; [intros; apply same_eq|]. intros o l1. revert o. induction l1 as [|x l1 IH]; intros o l2; cbn [app replace_copy_alg]; [apply same_eq|].
  eapply same_eq_r; [apply same_sym_eq, bind_assoc|]. apply same_bind_eq. intros b.
  eapply same_eq_r; [apply same_sym_eq, bind_assoc|]. apply same_bind_eq. intros []. apply IH.
Qed.
Lemma replace_copy_spec {N} (p : view V -> M S bool) (new : N) put o l :
  same_as (S := S) (replace_copy_alg p new put o l) (std_replace_copy_if p new put l o) eq.
Proof.
  revert o. induction l as [|x l IH]; intros o; cbn [replace_copy_alg std_replace_copy_if]; [apply same_eq|].
  apply same_bind_eq. intros [|]; apply same_bind_eq; intros []; apply IH.
Qed.
Lemma transform2_out {Y O} (op : view V -> Y -> M S O) put : out_app (transform2_alg op put).
Proof.
  split; [intros; apply same_eq|]. intros o l1. revert o. induction l1 as [|x l1 IH]; intros [o ys] l2; cbn [app transform2_alg]; [apply same_eq|].
  cbn [fst snd]. destruct ys as [|y ys]; [apply same_eq|].
  eapply same_eq_r; [apply same_sym_eq, bind_assoc|]. apply same_bind_eq. intros b.
  eapply same_eq_r; [apply same_sym_eq, bind_assoc|]. apply same_bind_eq. intros []. apply IH.
Qed.
Lemma transform2_spec {Y O} (op : view V -> Y -> M S O) put o ys l :
  same_as (r <- transform2_alg op put (o, ys) l ;; ret (fst r)) (std_transform2 op put l ys o) eq.
Proof.
  revert o ys. induction l as [|x l IH]; intros o ys; cbn [transform2_alg std_transform2]; [apply same_eq|].
  cbn [fst snd]. destruct ys as [|y ys]; [apply same_eq|].
  eapply same_eq_l; [apply bind_assoc|]. apply same_bind_eq. intros r.
  eapply same_eq_l; [apply bind_assoc|]. apply same_bind_eq. intros []. apply IH.
Qed.

Section Loops.
Context (c : coll V) (Ts : list tyid) (W : aok c).

Lemma all_of_loop_ok p ps i j : cover c ps i j -> same_as (S := S) (all_of_loop c Ts p ps) (std_all_of p (views c Ts i j)) eq.
Proof.
  induction 1 as [i|q ps i j k P C IH].
  - rewrite views_nil. apply same_eq.
  - cbn [all_of_loop]. rewrite (piece_views_ok c Ts q i j W P), lift_some.
    rewrite <- (views_app c Ts i j k) by (first [apply (piece_le c q i j P)|apply (cover_le c ps j k C)]).
    eapply same_eq_r; [apply same_sym_eq, all_of_app|]. apply same_bind_eq. intros [|]; auto. apply same_eq.
Qed.
Lemma any_of_loop_ok p ps i j : cover c ps i j -> same_as (S := S) (any_of_loop c Ts p ps) (std_any_of p (views c Ts i j)) eq.
Proof.
  induction 1 as [i|q ps i j k P C IH].
  - rewrite views_nil. apply same_eq.
  - cbn [any_of_loop]. rewrite (piece_views_ok c Ts q i j W P), lift_some.
    rewrite <- (views_app c Ts i j k) by (first [apply (piece_le c q i j P)|apply (cover_le c ps j k C)]).
    eapply same_eq_r; [apply same_sym_eq, any_of_app|]. apply same_bind_eq. intros [|]; auto. apply same_eq.
Qed.
Lemma none_of_loop_ok p ps i j : cover c ps i j -> same_as (S := S) (none_of_loop c Ts p ps) (std_none_of p (views c Ts i j)) eq.
Proof.
  induction 1 as [i|q ps i j k P C IH].
  - rewrite views_nil. apply same_eq.
  - cbn [none_of_loop]. rewrite (piece_views_ok c Ts q i j W P), lift_some.
    rewrite <- (views_app c Ts i j k) by (first [apply (piece_le c q i j P)|apply (cover_le c ps j k C)]).
    eapply same_eq_r; [apply same_sym_eq, none_of_app|]. apply same_bind_eq. intros [|]; auto. apply same_eq.
Qed.
Lemma count_loop_ok p ps i j r : cover c ps i j ->
  same_as (S := S) (count_loop c Ts p ps r) (n <- std_count_if p (views c Ts i j) ;; ret (r + n)) eq.
Proof.
  intros C. revert r. induction C as [i|q ps i j k P C IH]; intros r.
  - rewrite views_nil. simpl. rewrite bind_ret_l. apply same_ret. lia.
  - cbn [count_loop]. rewrite (piece_views_ok c Ts q i j W P), lift_some.
    rewrite <- (views_app c Ts i j k) by (first [apply (piece_le c q i j P)|apply (cover_le c ps j k C)]).
    eapply same_eq_r.
    { apply same_sym_eq. eapply same_bind; [apply count_if_app|]. intros a a' ->. apply same_eq. }
    eapply same_eq_r; [apply same_sym_eq, bind_assoc|]. apply same_bind_eq. intros n.
    eapply same_eq_l; [apply IH|].
    eapply same_eq_r; [apply same_sym_eq, bind_assoc|]. apply same_bind_eq. intros m. rewrite bind_ret_l.
    apply same_ret. lia.
Qed.

(** ** Positions *)

Lemma at_in l1 n l2 g : c_nodes c = l1 ++ n :: l2 -> tot l1 <= g -> g < tot l1 + nsz n ->
  iat c g = mkiter (Some (n_id n)) (be_ptr (nb n) (g - tot l1)).
Proof.
  intros En L1 L2. replace g with (tot l1 + (g - tot l1)) at 1 by lia. rewrite En, at_app. simpl.
  destruct (Nat.ltb_spec (g - tot l1) (nsz n)); [auto|lia].
Qed.
Lemma at_past l1 n l2 g : c_nodes c = l1 ++ n :: l2 -> tot l1 + nsz n <= g -> g <= tot (c_nodes c) ->
  it_map (iat c g) <> Some (n_id n).
Proof.
  intros En L1 L2. destruct (Nat.eq_dec g (tot (c_nodes c))) as [->|Ne]; [rewrite at_end; discriminate|].
  assert (En' : c_nodes c = (l1 ++ [n]) ++ l2) by (rewrite <- app_assoc; auto).
  destruct (at_rest c (l1 ++ [n]) l2 g) as (x & m & l3 & k & -> & Hk & Ej); auto; try lia.
  { rewrite tot_app, tot_cons. unfold tot in *. simpl in *. lia. }
  assert (En2 : c_nodes c = ((l1 ++ [n]) ++ x) ++ m :: l3) by (rewrite En', <- !app_assoc; auto).
  rewrite (at_in ((l1 ++ [n]) ++ x) m l3 g En2) by lia. cbn [it_map].
  intros Q. inversion Q as [Q']. assert (ND : NoDup (map n_id (l1 ++ n :: x ++ m :: l3))) by (rewrite <- En; apply W).
  refine (nodup_app_ids l1 n _ m ND _ Q'). apply in_or_app. right. left. auto.
Qed.
Lemma tot_snoc (l1 : NL) n : tot (l1 ++ [n]) = tot l1 + nsz n.
Proof. rewrite tot_app, tot_cons. unfold tot. simpl. lia. Qed.
Lemma app_snoc {A} (l1 : list A) n l2 : l1 ++ n :: l2 = (l1 ++ [n]) ++ l2.
Proof. rewrite <- app_assoc. auto. Qed.
Lemma segs_at g l1 n l2 : c_nodes c = l1 ++ n :: l2 -> it_map (iat c g) = Some (n_id n) -> segs_from c (iat c g) = Some (n :: l2).
Proof. intros En Q. unfold segs_from. rewrite Q, En. apply nodes_from_split. rewrite <- En. apply W. Qed.

Section FirstLast.
Context (i j : nat) (L : i <= j) (Lj : j <= tot (c_nodes c)).

Lemma all_of_ok p : same_as (S := S) (pc_all_of c Ts (iat c i) (iat c j) p) (std_all_of p (views c Ts i j)) eq.
Proof.
  destruct (split_ok c i j W L Lj) as (ps & Q & C). unfold pc_all_of. rewrite Q, lift_some. apply all_of_loop_ok; auto.
Qed.
Lemma any_of_ok p : same_as (S := S) (pc_any_of c Ts (iat c i) (iat c j) p) (std_any_of p (views c Ts i j)) eq.
Proof.
  destruct (split_ok c i j W L Lj) as (ps & Q & C). unfold pc_any_of. rewrite Q, lift_some. apply any_of_loop_ok; auto.
Qed.
Lemma none_of_ok p : same_as (S := S) (pc_none_of c Ts (iat c i) (iat c j) p) (std_none_of p (views c Ts i j)) eq.
Proof.
  destruct (split_ok c i j W L Lj) as (ps & Q & C). unfold pc_none_of. rewrite Q, lift_some. apply none_of_loop_ok; auto.
Qed.
Lemma count_if_ok p : same_as (S := S) (pc_count_if c Ts (iat c i) (iat c j) p) (std_count_if p (views c Ts i j)) eq.
Proof.
  destruct (split_ok c i j W L Lj) as (ps & Q & C). unfold pc_count_if. rewrite Q, lift_some.
  eapply same_eq_l; [apply count_loop_ok; eauto|].
  eapply same_eq_l; [|apply bind_ret_r]. apply same_eq.
Qed.

(** ** generic_find *)

Lemma find_loop_ok {T} (alg : T -> list (view V) -> M S (T * nat)) :
  idx_app alg -> idx_le alg -> (forall t, same_as (alg t []) (ret (t, 0)) eq) ->
  forall ps a b t, cover c ps a b -> a <= b ->
  same_as (generic_find_loop c Ts (at_index c Ts alg) t (iat c b) ps) (alg t (views c Ts a b))
    (fun r r' => fst r = fst r' /\ snd r = iat c (a + snd r')).
Proof.
  intros Ha Hle H0 ps a b t C _. revert t. induction C as [a|q ps a m b P C IH]; intros t.
  - rewrite views_nil. eapply same_eq_r; [apply same_sym_eq, H0|]. apply same_ret. simpl. rewrite Nat.add_0_r. auto.
  - cbn [generic_find_loop]. rewrite (piece_views_ok c Ts q a m W P), lift_some.
    assert (La := piece_le c q a m P). assert (Lb := cover_le c ps m b C).
    rewrite <- (views_app c Ts a m b) by lia.
    eapply same_eq_r; [apply same_sym_eq, Ha|]. rewrite views_length by lia. unfold at_index.
    eapply same_eq_l; [apply bind_assoc|].
    eapply same_bind; [apply Hle|]. intros r r' [<- Hr]. rewrite views_length in Hr by lia.
    eapply same_eq_l; [apply bind_assoc|].
    rewrite (piece_at_ok c Ts q a m) by auto. rewrite lift_some, bind_ret_l. cbn [fst snd].
    rewrite (piece_eq_end c q a m) by auto.
    destruct (Nat.eqb_spec (snd r) (m - a)) as [Er|Er].
    + eapply same_eq_l; [apply same_sym_eq, bind_ret_r|].
      eapply same_bind; [apply (IH (fst r))|]. intros x y [Ex Ey]. apply same_ret. cbn [fst snd].
      split; auto. rewrite Ey. f_equal. lia.
    + rewrite (piece_iter c q a m) by (auto; lia). rewrite lift_some. apply same_ret. auto.
Qed.

Lemma generic_find_ok {T} (alg : T -> list (view V) -> M S (T * nat)) t :
  idx_app alg -> idx_le alg -> (forall t, same_as (alg t []) (ret (t, 0)) eq) ->
  same_as (generic_find c Ts (at_index c Ts alg) t (iat c i) (iat c j)) (alg t (views c Ts i j))
    (fun r r' => fst r = fst r' /\ snd r = iat c (i + snd r')).
Proof.
  intros Ha Hle H0. destruct (split_ok c i j W L Lj) as (ps & Q & C). unfold generic_find. rewrite Q, lift_some.
  apply find_loop_ok; auto.
Qed.
Lemma find_by_ok (alg : list (view V) -> M S nat) :
  idx_app0 alg -> idx_le0 alg -> same_as (alg []) (ret 0) eq ->
  same_as (find_by c Ts alg (iat c i) (iat c j)) (alg (views c Ts i j))
    (fun it k => it = iat c (i + k) /\ k <= j - i).
Proof.
  intros Ha Hle H0. unfold find_by.
  eapply same_eq_r; [apply bind_ret_r|].
  eapply same_bind with (R := fun r k => snd r = iat c (i + k) /\ k <= j - i); [|intros r k [Hr Hk]; apply same_ret; auto].
  eapply same_trans with (R := fun r r' => fst r = fst r' /\ snd r = iat c (i + snd r'))
    (m' := k <- alg (views c Ts i j) ;; ret (tt, k)).
  - apply (generic_find_ok (fun t xs => k <- alg xs ;; ret (t, k))).
    + intros t l1 l2. eapply same_eq_l; [eapply same_bind; [apply Ha|intros a a' ->; apply same_eq]|].
      eapply same_eq_l; [apply bind_assoc|]. eapply same_eq_r; [apply same_sym_eq, bind_assoc|].
      apply same_bind_eq. intros k. rewrite bind_ret_l. cbn [fst snd]. destruct (k =? length l1); [|apply same_eq].
      eapply same_eq_l; [apply bind_assoc|]. eapply same_eq_r; [apply same_sym_eq, bind_assoc|].
      apply same_bind_eq. intros m. apply same_eq.
    + intros t l. eapply same_bind; [apply Hle|]. intros a a' [<- Ka]. apply same_ret. auto.
    + intros t. eapply same_eq_l; [eapply same_bind; [apply H0|intros a a' ->; apply same_eq]|]. apply same_eq.
  - eapply same_eq_r; [apply bind_ret_r|]. eapply same_bind; [apply Hle|]. intros a a' [<- Ka].
    rewrite views_length in Ka by auto.
    apply (same_ret (tt, a) a (fun r k => r = (tt, k) /\ k <= j - i)). auto.
  - intros r r' k [_ Hr] [-> Hk]. auto.
Qed.
Lemma find_if_ok p : same_as (S := S) (pc_find_if c Ts (iat c i) (iat c j) p) (std_find_if p (views c Ts i j))
  (fun it k => it = iat c (i + k) /\ k <= j - i).
Proof.
  apply find_by_ok; [eapply idx_app0_ext|eapply idx_le0_ext|apply same_eq];
    try (intros; apply find_if_go); [apply go_app|apply go_le].
Qed.
Lemma find_if_not_ok p : same_as (S := S) (pc_find_if_not c Ts (iat c i) (iat c j) p) (std_find_if_not p (views c Ts i j))
  (fun it k => it = iat c (i + k) /\ k <= j - i).
Proof.
  apply find_by_ok; [eapply idx_app0_ext|eapply idx_le0_ext|apply same_eq];
    try (intros; apply find_if_not_go); [apply go_app|apply go_le].
Qed.
Lemma find_first_of_ok {Y} (p : view V -> Y -> M S bool) ys :
  same_as (pc_find_first_of c Ts (iat c i) (iat c j) p ys) (std_find_first_of p ys (views c Ts i j))
  (fun it k => it = iat c (i + k) /\ k <= j - i).
Proof.
  apply find_by_ok; [eapply idx_app0_ext|eapply idx_le0_ext|apply same_eq];
    try (intros; apply find_first_of_go); [apply go_app|apply go_le].
Qed.

(** ** mismatch and equal *)

Lemma mismatch_ok {Y} bounded (ys : list Y) p :
  same_as (S := S) (pc_mismatch bounded c Ts (iat c i) (iat c j) ys p)
    ((if bounded then std_mismatch_to else std_mismatch) p (views c Ts i j) ys)
    (fun r k => r = (iat c (i + k), k) /\ k <= j - i /\ k <= length ys).
Proof.
  unfold pc_mismatch. eapply same_eq_r; [apply bind_ret_r|].
  eapply same_bind with (R := fun r k => snd r = iat c (i + k) /\ fst r = skipn k ys /\ k <= j - i /\ k <= length ys).
  - eapply same_trans; [apply (generic_find_ok (mismatch_alg bounded p) ys)|apply mismatch_alg_spec|].
    + apply mismatch_alg_app.
    + apply mismatch_alg_le.
    + intros t. apply same_eq.
    + intros r r' k [H1 H2] (-> & H3 & H4). rewrite views_length in H3 by auto. auto.
  - intros r k (H1 & H2 & H3 & H4). apply same_ret. rewrite H1, H2, skipn_length. split; auto. f_equal. lia.
Qed.

Lemma equal_loop_ok {Y} bounded (p : view V -> Y -> M S bool) ps a b ys : cover c ps a b ->
  same_as (equal_loop bounded c Ts p ys ps) (equal_alg bounded p ys (views c Ts a b)) eq.
Proof.
  intros C. revert ys. induction C as [a|q ps a m b P C IH]; intros ys.
  - rewrite views_nil. apply same_eq.
  - cbn [equal_loop]. rewrite (piece_views_ok c Ts q a m W P), lift_some.
    rewrite <- (views_app c Ts a m b) by (first [apply (piece_le c q a m P)|apply (cover_le c ps m b C)]).
    eapply same_eq_r; [apply same_sym_eq, equal_alg_app|]. apply same_bind_eq. intros [u [|]]; cbn [fst snd]; [apply IH|apply same_eq].
Qed.
Lemma equal_ok {Y} bounded (ys : list Y) p :
  same_as (S := S) (pc_equal bounded c Ts (iat c i) (iat c j) ys p)
    ((if bounded then std_equal_to else std_equal) p (views c Ts i j) ys) eq.
Proof.
  destruct (split_ok c i j W L Lj) as (ps & Q & C). unfold pc_equal. rewrite Q, lift_some.
  eapply same_eq_r; [apply equal_alg_spec|].
  eapply same_bind; [apply (equal_loop_ok bounded p ps i j ys C)|]. intros a a' ->. apply same_eq.
Qed.

(** ** generic_copy *)

Lemma generic_copy_ok {T} (alg : T -> list (view V) -> M S T) t : out_app alg ->
  same_as (generic_copy c Ts alg (iat c i) (iat c j) t) (alg t (views c Ts i j)) eq.
Proof.
  intros [H0 Ha]. destruct (split_ok c i j W L Lj) as (ps & Q & C). unfold generic_copy. rewrite Q, lift_some.
  clear Q L Lj. revert t. induction C as [a|q ps a m b P C IH]; intros t.
  - rewrite views_nil. eapply same_eq_r; [apply same_sym_eq, H0|]. apply same_eq.
  - cbn [generic_copy_loop]. rewrite (piece_views_ok c Ts q a m W P), lift_some.
    rewrite <- (views_app c Ts a m b) by (first [apply (piece_le c q a m P)|apply (cover_le c ps m b C)]).
    eapply same_eq_r; [apply same_sym_eq, Ha|]. apply same_bind_eq. intros t'. apply IH.
Qed.
Lemma transform2_ok {Y O} (op : view V -> Y -> M S O) put ys o :
  same_as (pc_transform2 c Ts (iat c i) (iat c j) ys put op o) (std_transform2 op put (views c Ts i j) ys o) eq.
Proof.
  unfold pc_transform2. eapply same_eq_r; [apply transform2_spec|].
  eapply same_bind; [apply generic_copy_ok, transform2_out|]. intros a a' ->. apply same_eq.
Qed.
Lemma replace_copy_if_ok {N} p (new : N) put o :
  same_as (S := S) (pc_replace_copy_if c Ts (iat c i) (iat c j) put p new o) (std_replace_copy_if p new put (views c Ts i j) o) eq.
Proof. eapply same_eq_l; [apply generic_copy_ok, replace_copy_out|]. apply replace_copy_spec. Qed.

(** ** fast_distance *)

Lemma fast_distance_loop_ok l2 l1 m : c_nodes c = l1 ++ l2 -> tot l1 <= j ->
  same_as (S := S) (fast_distance_loop l2 (iat c j) m) (ret (m + (j - tot l1))) eq.
Proof.
  revert l1 m. induction l2 as [|n l2 IH]; intros l1 m En Lt.
  - rewrite app_nil_r in En. assert (Ej : j = tot (c_nodes c)) by (assert (Lj' := Lj); rewrite En in Lj' |- *; lia).
    cbn [fast_distance_loop]. rewrite Ej, at_end. cbn [it_map]. simpl. apply same_ret. rewrite En. lia.
  - cbn [fast_distance_loop]. change (seg_begin (n_seg n)) with (be_ptr (nb n) 0). change (seg_end (n_seg n)) with (be_ptr (nb n) (nsz n)).
    destruct (Nat.lt_ge_cases j (tot l1 + nsz n)) as [Lt'|Ge].
    + rewrite (at_in l1 n l2) by auto. cbn [it_map it_pos]. rewrite mapit_eqb_refl, pdiff_ptr by lia. rewrite lift_some.
      apply same_ret. lia.
    + rewrite mapit_eqb_neq by (intros Q; apply (at_past l1 n l2 j En Ge Lj); auto). rewrite pdiff_ptr by lia. rewrite lift_some.
      eapply same_eq_l; [apply (IH (l1 ++ [n]))|].
      * rewrite En. apply app_snoc.
      * rewrite tot_snoc. auto.
      * rewrite tot_snoc. apply same_ret. lia.
Qed.
Lemma fast_distance_ok : same_as (S := S) (pc_fast_distance c (iat c i) (iat c j)) (ret (j - i)) eq.
Proof.
  unfold pc_fast_distance. rewrite (it_eq_at (c_nodes c) i j) by (try apply W; lia).
  destruct (Nat.eqb_spec i j) as [->|Ne]; [apply same_ret; lia|].
  destruct (at_split (c_nodes c) i) as (l1 & n & l2 & a & En & Ha & Ei & At); [lia|].
  assert (Ai := at_in l1 n l2 i En). 
  destruct (Nat.lt_ge_cases j (tot l1 + nsz n)) as [Lt|Ge].
  - rewrite At, (at_in l1 n l2 j) by (auto; lia). cbn [it_map it_pos]. rewrite mapit_eqb_refl, pdiff_ptr by lia.
    apply same_ret. lia.
  - assert (Hp := at_past l1 n l2 j En Ge Lj). rewrite mapit_eqb_neq by (rewrite At; cbn [it_map]; auto).
    rewrite (segs_at i l1 n l2 En) by (rewrite At; auto). rewrite lift_some.
    change (seg_end (n_seg n)) with (be_ptr (nb n) (nsz n)).
    rewrite At. cbn [it_pos]. rewrite pdiff_ptr by lia. rewrite lift_some.
    eapply same_eq_l; [apply (fast_distance_loop_ok l2 (l1 ++ [n]))|].
    + rewrite En. apply app_snoc.
    + rewrite tot_snoc. auto.
    + rewrite tot_snoc. apply same_ret. lia.
Qed.

(** ** for_each_segment *)

Lemma fes_rest (f : piece -> M S unit) first stop l2 l1 n b ps : c_nodes c = l1 ++ n :: l2 ->
  tot l1 + nsz n <= j -> (forall m, In m l2 -> it_map first <> Some (n_id m)) ->
  split_end c (iat c j) = Some stop -> split_from l2 stop first (iat c j) = Some ps ->
  same_as (fes_loop (n :: l2) b (iat c j) f)
    (f (mkpiece (n_id n) (env_ty (n_key n)) b (seg_end (n_seg n))) ;; std_for_each f ps) eq.
Proof.
  revert l1 n b ps. induction l2 as [|n' l2 IH]; intros l1 n b ps En Le Hf Hs Hp.
  - assert (Ej : j = tot (c_nodes c)) by (assert (Lj' := Lj); rewrite En, tot_snoc in Lj' |- *; lia).
    rewrite Ej, at_end in *. cbn [fes_loop it_map]. apply same_bind_eq. intros []. simpl.
    inversion Hs; subst stop. cbn [split_from] in Hp. inversion Hp. apply same_eq.
  - assert (En' : c_nodes c = (l1 ++ [n]) ++ n' :: l2) by (rewrite En; apply app_snoc).
    cbn [fes_loop]. apply same_bind_eq. intros []. cbn [split_from] in Hp.
    destruct (Nat.lt_ge_cases j (tot (l1 ++ [n]) + nsz n')) as [Lt|Ge].
    + assert (A := at_in (l1 ++ [n]) n' l2 j En'). rewrite tot_snoc in A, Lt. specialize (A Le Lt).
      destruct (split_end_at c (l1 ++ [n]) n' l2 (j - tot (l1 ++ [n]))) as [Se _]; [apply W|auto|rewrite tot_snoc; lia|].
      rewrite tot_snoc in Se. replace (tot l1 + nsz n + (j - (tot l1 + nsz n))) with j in Se by lia.
      rewrite Hs in Se. inversion Se; subst stop. rewrite split_stop in Hp.
      destruct (mapit_eqb (Some (n_id n')) (head_id l2)) eqn:Em.
      { exfalso. apply mapit_eqb_spec in Em. destruct l2 as [|m l2]; [discriminate Em|]. simpl in Em. inversion Em as [Q].
        refine (nodup_app_ids (l1 ++ [n]) n' (m :: l2) m _ (or_introl eq_refl) (eq_sym Q)). rewrite <- En'. apply W. }
      inversion Hp; subst ps. unfold split_info. rewrite A. cbn [it_map it_pos]. rewrite mapit_eqb_refl.
      rewrite mapit_eqb_neq by (intros Q; apply (Hf n' (or_introl eq_refl)); congruence). cbn [std_for_each].
      eapply same_eq_l; [apply same_sym_eq, bind_ret_r|]. apply same_bind_eq. intros []. apply same_eq.
    + assert (Hm := at_past (l1 ++ [n]) n' l2 j En' Ge Lj).
      rewrite mapit_eqb_neq by auto.
      destruct (mapit_eqb (Some (n_id n')) stop) eqn:Em.
      { exfalso. apply mapit_eqb_spec in Em. subst stop. destruct (Nat.eq_dec j (tot (c_nodes c))) as [Ej|Ne].
        - rewrite Ej, at_end in Hs. discriminate Hs.
        - destruct (at_rest c ((l1 ++ [n]) ++ [n']) l2 j) as (x & m & l3 & k & -> & Hk & Ej).
          { rewrite En'. apply app_snoc. }
          { rewrite tot_snoc. auto. }
          { lia. }
          assert (En2 : c_nodes c = (((l1 ++ [n]) ++ [n']) ++ x) ++ m :: l3) by (rewrite En', <- !app_assoc; auto).
          destruct (split_end_at c (((l1 ++ [n]) ++ [n']) ++ x) m l3 k) as [Se _]; [apply W|auto|auto|].
          rewrite <- Ej, Hs in Se. inversion Se as [Q]. destruct l3 as [|m' l3]; [discriminate Q|]. simpl in Q. inversion Q as [Q'].
          refine (nodup_app_ids (l1 ++ [n]) n' (x ++ m :: m' :: l3) m' _ _ (eq_sym Q')).
          + rewrite <- En'. apply W.
          + apply in_or_app. right. right. left. auto. }
      destruct (split_from l2 stop first (iat c j)) as [ps'|] eqn:Ep; [|discriminate Hp]. inversion Hp; subst ps.
      eapply same_eq_l; [apply (IH (l1 ++ [n]) n' _ ps'); auto|].
      * intros m Hm'. apply Hf. right. auto.
      * cbn [std_for_each]. unfold split_info. rewrite !mapit_eqb_neq.
        -- apply same_eq.
        -- auto.
        -- intros Q. apply (Hf n'); [left|]; auto.
Qed.
Lemma for_each_segment_split (f : piece -> M S unit) ps : segment_split c (iat c i) (iat c j) = Some ps ->
  same_as (for_each_segment c (iat c i) (iat c j) f) (std_for_each f ps) eq.
Proof.
  intros Hp. unfold for_each_segment. unfold segment_split in Hp.
  destruct (split_end c (iat c j)) as [stop|] eqn:Hs; [|discriminate Hp].
  destruct (Nat.eq_dec i (tot (c_nodes c))) as [Ei|Ne].
  - assert (Ej : j = tot (c_nodes c)) by lia. rewrite Ej in *. rewrite Ei, at_end in *. unfold segs_from in *. cbn [it_map] in *. rewrite lift_some. simpl.
    inversion Hs; subst stop. simpl in Hp. inversion Hp. apply same_eq.
  - destruct (at_split (c_nodes c) i) as (l1 & n & l2 & a & En & Ha & Ei & At); [lia|].
    rewrite (segs_at i l1 n l2 En) in * by (rewrite At; auto). rewrite lift_some.
    assert (ND : NoDup (map n_id (l1 ++ n :: l2))) by (rewrite <- En; apply W).
    cbn [split_from] in Hp.
    destruct (Nat.lt_ge_cases j (tot l1 + nsz n)) as [Lt|Ge].
    + destruct (split_end_at c l1 n l2 (j - tot l1)) as [Se At']; auto; [apply W|lia|].
      replace (tot l1 + (j - tot l1)) with j in Se, At' by lia. rewrite Hs in Se. inversion Se; subst stop.
      rewrite split_stop in Hp. rewrite mapit_eqb_neq in Hp.
      2:{ destruct l2 as [|m l2]; [discriminate|]. simpl. intros Q. inversion Q as [Eq].
          refine (nodup_app_ids l1 n (m :: l2) m ND (or_introl eq_refl) (eq_sym Eq)). }
      inversion Hp; subst ps. rewrite At, At'. unfold split_info. cbn [it_map it_pos]. rewrite !mapit_eqb_refl. cbn [std_for_each].
      eapply same_eq_l; [apply same_sym_eq, bind_ret_r|]. apply same_bind_eq. intros []. apply same_eq.
    + assert (Hm := at_past l1 n l2 j En Ge Lj). rewrite mapit_eqb_neq by (rewrite At; cbn [it_map]; auto).
      destruct (mapit_eqb (Some (n_id n)) stop) eqn:Em.
      { exfalso. apply mapit_eqb_spec in Em. subst stop. destruct (Nat.eq_dec j (tot (c_nodes c))) as [Ej|Ne'].
        - rewrite Ej, at_end in Hs. discriminate Hs.
        - destruct (at_rest c (l1 ++ [n]) l2 j) as (x & m & l3 & k & -> & Hk & Ej).
          { rewrite En. apply app_snoc. }
          { rewrite tot_snoc. auto. }
          { lia. }
          assert (En2 : c_nodes c = ((l1 ++ [n]) ++ x) ++ m :: l3) by (rewrite En, <- !app_assoc; auto).
          destruct (split_end_at c ((l1 ++ [n]) ++ x) m l3 k) as [Se _]; [apply W|auto|auto|].
          rewrite <- Ej, Hs in Se. inversion Se as [Q]. destruct l3 as [|m' l3]; [discriminate Q|]. simpl in Q. inversion Q as [Q'].
          refine (nodup_app_ids l1 n (x ++ m :: m' :: l3) m' ND _ (eq_sym Q')).
          apply in_or_app. right. right. left. auto. }
      destruct (split_from l2 stop (iat c i) (iat c j)) as [ps'|] eqn:Ep; [|discriminate Hp]. inversion Hp; subst ps.
      eapply same_eq_l; [apply (fes_rest f (iat c i) stop l2 l1 n _ ps' En Ge)|]; auto.
      * intros m Hm' Q. rewrite At in Q. cbn [it_map] in Q. inversion Q as [Q']. refine (nodup_app_ids l1 n l2 m ND Hm' (eq_sym Q')).
      * cbn [std_for_each]. unfold split_info. rewrite At. cbn [it_map it_pos]. rewrite mapit_eqb_refl.
        rewrite mapit_eqb_neq by auto. apply same_eq.
Qed.
Lemma for_each_ok f : same_as (S := S) (pc_for_each c Ts (iat c i) (iat c j) f) (std_for_each f (views c Ts i j)) eq.
Proof.
  destruct (split_ok c i j W L Lj) as (ps & Q & C). unfold pc_for_each.
  eapply same_eq_l; [apply for_each_segment_split; eauto|]. clear Q L Lj.
  induction C as [a|q ps a m b P C IH].
  - rewrite views_nil. apply same_eq.
  - cbn [std_for_each]. rewrite (piece_views_ok c Ts q a m W P), lift_some.
    rewrite <- (views_app c Ts a m b) by (first [apply (piece_le c q a m P)|apply (cover_le c ps m b C)]).
    eapply same_eq_r; [apply same_sym_eq, for_each_app|]. apply same_bind_eq. intros []. apply IH.
Qed.
End FirstLast.

(** ** for_each_n and copy_n *)

Lemma for_each_n_loop_ok f l2 l1 n a k : c_nodes c = l1 ++ n :: l2 -> a <= nsz n -> tot l1 + a + k <= tot (c_nodes c) ->
  same_as (S := S) (for_each_n_loop c Ts f (n :: l2) (be_ptr (nb n) a) k)
    (std_for_each f (views c Ts (tot l1 + a) (tot l1 + a + k))) (fun it _ => it = iat c (tot l1 + a + k)).
Proof.
  revert l1 n a k. induction l2 as [|n' l2 IH]; intros l1 n a k En La Lk; cbn [for_each_n_loop];
    change (seg_end (n_seg n)) with (be_ptr (nb n) (nsz n)); rewrite pdiff_ptr, lift_some by auto;
    destruct (aok_node c l1 n _ W En) as (_ & _ & K).
  1,2: destruct (Nat.leb_spec k (nsz n - a)) as [Hk|Hk].
  1,3: assert (P : piece_ok c (mkpiece (n_id n) (env_ty (n_key n)) (be_ptr (nb n) a) (padd (be_ptr (nb n) a) k)) (tot l1 + a) (tot l1 + a + k))
         by (exists l1, n; eexists; exists a, (a + k); csplit; [exact En|rewrite be_ptr_padd, K; auto|lia|lia|lia|lia]);
       rewrite (piece_views_ok c Ts _ _ _ W P), lift_some;
       eapply same_eq_r; [apply bind_ret_r|]; apply same_bind_eq; intros [];
       rewrite (piece_at_ok c Ts _ _ _ k W P), lift_some by lia;
       assert (Hi := piece_iter c _ _ _ k W P); cbn [pc_id pc_beg] in Hi; cbn [pc_beg]; rewrite Hi by lia; apply same_ret; auto.
  - rewrite En, tot_snoc in Lk. lia.
  - assert (P : piece_ok c (mkpiece (n_id n) (env_ty (n_key n)) (be_ptr (nb n) a) (padd (be_ptr (nb n) a) (nsz n - a))) (tot l1 + a) (tot l1 + nsz n))
      by (exists l1, n; eexists; exists a, (nsz n); csplit; [exact En|rewrite be_ptr_padd, K; do 2 f_equal; lia|lia|lia|lia|lia]).
    rewrite (piece_views_ok c Ts _ _ _ W P), lift_some.
    rewrite <- (views_app c Ts (tot l1 + a) (tot l1 + nsz n) (tot l1 + a + k)) by lia.
    eapply same_eq_r; [apply same_sym_eq, for_each_app|]. apply same_bind_eq. intros [].
    change (seg_begin (n_seg n')) with (be_ptr (nb n') 0).
    assert (I := IH (l1 ++ [n]) n' 0 (k - (nsz n - a))). rewrite tot_snoc in I.
    replace (tot l1 + nsz n + 0 + (k - (nsz n - a))) with (tot l1 + a + k) in I by lia. rewrite Nat.add_0_r in I.
    apply I; [rewrite En; apply app_snoc|lia|lia].
Qed.
Lemma for_each_n_ok f i k : i + k <= tot (c_nodes c) ->
  same_as (S := S) (pc_for_each_n c Ts (iat c i) k f) (std_for_each f (views c Ts i (i + k))) (fun it _ => it = iat c (i + k)).
Proof.
  intros Lk. unfold pc_for_each_n. destruct (Nat.eqb_spec k 0) as [->|Ne].
  - rewrite Nat.add_0_r, views_nil. apply same_ret. auto.
  - destruct (at_split (c_nodes c) i) as (l1 & n & l2 & a & En & Ha & Ei & At); [lia|].
    rewrite (segs_at i l1 n l2 En) by (rewrite At; auto). rewrite lift_some, At. cbn [it_pos].
    rewrite Ei. apply (for_each_n_loop_ok f l2 l1 n a k En); lia.
Qed.

Lemma copy_n_loop_ok put l2 l1 n a k o : c_nodes c = l1 ++ n :: l2 -> a <= nsz n -> tot l1 + a + k <= tot (c_nodes c) ->
  same_as (S := S) (copy_n_loop c Ts put (n :: l2) (be_ptr (nb n) a) k o)
    (std_copy put (views c Ts (tot l1 + a) (tot l1 + a + k)) o) eq.
Proof.
  revert l1 n a k o. induction l2 as [|n' l2 IH]; intros l1 n a k o En La Lk; cbn [copy_n_loop];
    change (seg_end (n_seg n)) with (be_ptr (nb n) (nsz n)); rewrite pdiff_ptr, lift_some by auto;
    destruct (aok_node c l1 n _ W En) as (_ & _ & K);
    assert (P : piece_ok c (mkpiece (n_id n) (env_ty (n_key n)) (be_ptr (nb n) a) (padd (be_ptr (nb n) a) (Nat.min k (nsz n - a)))) (tot l1 + a) (tot l1 + a + Nat.min k (nsz n - a)))
      by (exists l1, n; eexists; exists a, (a + Nat.min k (nsz n - a)); csplit; [exact En|rewrite be_ptr_padd, K; auto|lia|lia|lia|lia]);
    rewrite (piece_views_ok c Ts _ _ _ W P), lift_some;
    unfold std_copy_n; rewrite views_length by (rewrite ?En, ?tot_app, ?tot_cons in *; lia);
    (destruct (Nat.leb_spec (Nat.min k (nsz n - a)) (tot l1 + a + Nat.min k (nsz n - a) - (tot l1 + a))); [|lia]);
    (rewrite firstn_all2 by (rewrite views_length by (rewrite ?En, ?tot_app, ?tot_cons in *; lia); lia)).
  1,2: destruct (Nat.eqb_spec (k - Nat.min k (nsz n - a)) 0) as [Hk|Hk].
  1,3: rewrite Nat.min_l by lia; eapply same_eq_r; [apply bind_ret_r|]; apply same_bind_eq; intros o'; apply same_eq.
  - rewrite En, tot_snoc in Lk. lia.
  - rewrite Nat.min_r in * by lia.
    rewrite <- (views_app c Ts (tot l1 + a) (tot l1 + a + (nsz n - a)) (tot l1 + a + k)) by lia.
    eapply same_eq_r; [apply same_sym_eq, copy_out|]. apply same_bind_eq. intros o'.
    change (seg_begin (n_seg n')) with (be_ptr (nb n') 0).
    assert (I := IH (l1 ++ [n]) n' 0 (k - (nsz n - a)) o'). rewrite tot_snoc in I.
    replace (tot l1 + nsz n + 0 + (k - (nsz n - a))) with (tot l1 + a + k) in I by lia. rewrite Nat.add_0_r in I.
    replace (tot l1 + a + (nsz n - a)) with (tot l1 + nsz n) by lia.
    apply I; [rewrite En; apply app_snoc|lia|lia].
Qed.
Lemma copy_n_ok put i k o : i + k <= tot (c_nodes c) ->
  same_as (S := S) (pc_copy_n c Ts (iat c i) k put o) (std_copy put (views c Ts i (i + k)) o) eq.
Proof.
  intros Lk. unfold pc_copy_n. destruct (Nat.eqb_spec k 0) as [->|Ne].
  - rewrite Nat.add_0_r, views_nil. apply same_ret. auto.
  - destruct (at_split (c_nodes c) i) as (l1 & n & l2 & a & En & Ha & Ei & At); [lia|].
    rewrite (segs_at i l1 n l2 En) by (rewrite At; auto). rewrite lift_some, At. cbn [it_pos].
    rewrite Ei. apply (copy_n_loop_ok put l2 l1 n a k o En); lia.
Qed.

(** ** rotate_copy, is_partitioned *)

Lemma rotate_copy_ok put i m j o : i <= m -> m <= j -> j <= tot (c_nodes c) ->
  same_as (S := S) (pc_rotate_copy c Ts (iat c i) (iat c m) (iat c j) put o) (std_rotate_copy put (m - i) (views c Ts i j) o) eq.
Proof.
  intros L1 L2 L3. unfold pc_rotate_copy, std_rotate_copy.
  rewrite <- (views_app c Ts i m j) by auto.
  assert (Lm : length (views c Ts i m) = m - i) by (apply views_length; lia).
  rewrite <- Lm at 1 2. rewrite skipn_app, skipn_all, Nat.sub_diag, firstn_app, Nat.sub_diag, firstn_all. simpl. rewrite app_nil_r.
  eapply same_eq_r; [apply same_sym_eq, copy_out|].
  eapply same_bind; [apply generic_copy_ok; auto; apply copy_out|]. intros a a' ->.
  apply generic_copy_ok; auto; [lia|apply copy_out].
Qed.
Lemma views_skip i j k : i + k <= j -> j <= tot (c_nodes c) -> skipn k (views c Ts i j) = views c Ts (i + k) j.
Proof.
  intros L1 L2. rewrite <- (views_app c Ts i (i + k) j) by lia.
  rewrite skipn_app, views_length by lia. replace (i + k - i) with k by lia. rewrite Nat.sub_diag.
  rewrite skipn_all2 by (rewrite views_length; lia). auto.
Qed.
Lemma is_partitioned_ok i j p : i <= j -> j <= tot (c_nodes c) ->
  same_as (S := S) (pc_is_partitioned c Ts (iat c i) (iat c j) p) (std_is_partitioned p (views c Ts i j)) eq.
Proof.
  intros L Lj. unfold pc_is_partitioned, std_is_partitioned. eapply same_bind; [apply find_if_not_ok; auto|].
  intros it k [-> Hk]. rewrite (it_eq_at (c_nodes c) (i + k) j) by (try apply W; lia).
  destruct (Nat.eqb_spec (i + k) j) as [E1|E1].
  - rewrite skipn_all2 by (rewrite views_length; lia). apply same_eq.
  - rewrite (it_next_at c) by (try apply W; lia). rewrite lift_some.
    rewrite views_skip by lia. replace (i + (1 + k)) with (Datatypes.S (i + k)) by lia. apply none_of_ok; auto; lia.
Qed.
End Loops.
End PAlgo2.
