(** * Proofs about value_holder, allocator_adaptor and the algorithms of std::vector *)

From Coq Require Import List Arith Lia Bool.
From Verif Require Import Base ProofBase Vec ProofVec Holder Slots SpecHold.
Import ListNotations.

Section P.
Context {V : Type} {E : Env V} (t : tyid) (al : alid).
Implicit Types s : hst V.

Lemma cell_same (m : nat -> option V) a x : cell_set m a x a = x.
Proof. unfold cell_set. now rewrite Nat.eqb_refl. Qed.
Lemma cell_other (m : nat -> option V) a b x : b <> a -> cell_set m a x b = m b.
Proof. intros H. unfold cell_set. destruct (b =? a) eqn:K; auto. apply Nat.eqb_eq in K. contradiction. Qed.

Lemma wp_h_read a s x (Q : hst V -> V -> Prop) X : h_mem s a = Some x -> Q s x -> wp (h_read a) s Q X.
Proof. unfold wp, h_read. intros ->. auto. Qed.
Lemma wp_h_vacant a s (Q : hst V -> unit -> Prop) X : h_mem s a = None -> Q s tt -> wp (h_vacant a) s Q X.
Proof. unfold wp, h_vacant. intros ->. auto. Qed.

Lemma wp_h_tick s (Q : hst V -> unit -> Prop) (X : hst V -> exn -> Prop) :
  (forall s', (forall c, h_mem s' c = h_mem s c) -> Q s' tt) ->
  (forall s', (forall c, h_mem s' c = h_mem s c) -> X s' UserExn) -> wp h_tick s Q X.
Proof. intros H1 H2. unfold wp, h_tick. destruct (env_fault _); [apply H2|apply H1]; reflexivity. Qed.

Ltac hstep := repeat (apply wp_bind || (eapply wp_h_read; [eassumption|]) || (eapply wp_h_vacant; [eassumption|])).

(** Construction of T. *)
Lemma wp_t_copy v a b s x : h_mem s b = Some x -> h_mem s a = None ->
  wp (t_copy v a b) s
    (fun s' _ => h_mem s' a = Some x /\ (forall c, c <> a -> h_mem s' c = h_mem s c))
    (fun s' e => e = UserExn /\ forall c, h_mem s' c = h_mem s c).
Proof.
  intros Hb Ha. unfold t_copy. hstep. unfold wp, h_tick. destruct (env_fault _); cbn; [auto|].
  split; [apply cell_same|]. intros c Hc. now apply cell_other.
Qed.

Lemma wp_t_make v a s x : h_mem s a = None ->
  wp (t_make v a x) s
    (fun s' _ => h_mem s' a = Some x /\ (forall c, c <> a -> h_mem s' c = h_mem s c))
    (fun s' e => e = UserExn /\ forall c, h_mem s' c = h_mem s c).
Proof.
  intros Ha. unfold t_make. hstep. unfold wp, h_tick. destruct (env_fault _); cbn; [auto|].
  split; [apply cell_same|]. intros c Hc. now apply cell_other.
Qed.

Lemma wp_t_move v a b s x : h_mem s b = Some x -> h_mem s a = None ->
  wp (t_move t v a b) s
    (fun s' _ => h_mem s' a = Some x /\ h_mem s' b <> None /\ (forall c, c <> a -> c <> b -> h_mem s' c = h_mem s c))
    (fun s' e => e = UserExn /\ env_nt_move t = false /\ h_mem s' b <> None /\ (forall c, c <> b -> h_mem s' c = h_mem s c)).
Proof.
  intros Hb Ha. assert (N : a <> b) by (intros ->; congruence). unfold t_move. hstep.
  assert (K : forall s1, (forall c, h_mem s1 c = h_mem s c) ->
    wp (h_write a (Some x);; h_emit (Made v a);; h_unspec b) s1
      (fun s' _ => h_mem s' a = Some x /\ h_mem s' b <> None /\ (forall c, c <> a -> c <> b -> h_mem s' c = h_mem s c))
      (fun s' e => e = UserExn /\ env_nt_move t = false /\ h_mem s' b <> None /\ (forall c, c <> b -> h_mem s' c = h_mem s c))).
  { intros s1 H1. unfold wp. cbn. repeat split.
    - rewrite cell_other by auto. apply cell_same.
    - rewrite cell_same. discriminate.
    - intros c Ca Cb. rewrite !cell_other by auto. auto. }
  destruct (env_nt_move t) eqn:Nt.
  - apply wp_ret. apply K. auto.
  - apply wp_try. apply wp_h_tick; [apply K|].
    intros s1 H1. unfold wp. cbn. repeat split; auto. rewrite cell_same. discriminate. intros c Hc. now rewrite cell_other.
Qed.

Lemma wp_t_end v a s : h_mem s a <> None ->
  wp (t_end v a) s
    (fun s' _ => h_mem s' a = None /\ (forall c, c <> a -> h_mem s' c = h_mem s c)) (fun _ _ => False).
Proof.
  intros Ha. destruct (h_mem s a) as [x|] eqn:K; [|congruence]. unfold t_end. hstep. unfold wp. cbn.
  split; [apply cell_same|]. intros c Hc. now apply cell_other.
Qed.

(** Assignment of holders, real or emulated. *)
Lemma wp_vh_assign a b s x : storable t -> a <> b -> h_mem s b = Some x -> h_mem s a <> None ->
  wp (vh_assign t a b) s
    (fun s' _ => h_mem s' a = Some x /\ h_mem s' b <> None /\ (forall c, c <> a -> c <> b -> h_mem s' c = h_mem s c))
    (fun s' e => e = UserExn /\ env_assignable t = true /\ env_nt_assign t = false /\
       h_mem s' a <> None /\ h_mem s' b <> None /\ (forall c, c <> a -> c <> b -> h_mem s' c = h_mem s c)).
Proof.
  intros F N Hb Ha. unfold vh_assign, storable in *. destruct (env_assignable t) eqn:As.
  - destruct (h_mem s a) as [y|] eqn:K; [|congruence]. unfold t_assign. hstep.
    assert (L : forall s1, (forall c, h_mem s1 c = h_mem s c) ->
      wp (h_write a (Some x);; h_unspec b) s1
        (fun s' _ => h_mem s' a = Some x /\ h_mem s' b <> None /\ (forall c, c <> a -> c <> b -> h_mem s' c = h_mem s c))
        (fun s' e => e = UserExn /\ true = true /\ env_nt_assign t = false /\
       h_mem s' a <> None /\ h_mem s' b <> None /\ (forall c, c <> a -> c <> b -> h_mem s' c = h_mem s c))).
    { intros s1 H1. unfold wp. cbn. repeat split.
      - rewrite cell_other by auto. apply cell_same.
      - rewrite cell_same. discriminate.
      - intros c Ca Cb. rewrite !cell_other by auto. auto. }
    destruct (env_nt_assign t) eqn:Nt.
    + apply wp_ret. apply L. auto.
    + apply wp_try. apply wp_h_tick; [apply L|].
      intros s1 H1. unfold wp. cbn. repeat split; auto.
      * rewrite cell_other by auto. rewrite cell_same. discriminate.
      * rewrite cell_same. discriminate.
      * intros c Ca Cb. now rewrite !cell_other.
  - destruct F as [F|F]; [discriminate|]. rewrite F. cbn. destruct (a =? b) eqn:K; [apply Nat.eqb_eq in K; contradiction|].
    apply wp_bind. eapply wp_mono; [apply wp_t_end; eauto| |intros ? ? []].
    intros s1 _ (A1 & R1). assert (B1 : h_mem s1 b = Some x) by (rewrite R1; auto).
    eapply wp_mono; [apply wp_t_move; eauto| |].
    + cbn. intros s2 _ (A2 & B2 & R2). repeat split; auto. intros c Ca Cb. rewrite R2, R1; auto.
    + cbn. intros s2 e (_ & Z & _). congruence.
Qed.

Lemma vh_assign_self a s : env_assignable t = false -> storable t -> vh_assign t a a s = Ok s tt.
Proof.
  unfold vh_assign, storable. intros -> F. destruct F as [F|F]; [discriminate|]. rewrite F. cbn. now rewrite Nat.eqb_refl.
Qed.

Lemma wp_vh_ctor v a r s x : gives s r x -> h_mem s a = None ->
  wp (vh_ctor t v a r) s
    (fun s' _ => h_mem s' a = Some x /\ (copies r = true -> env_copyable t = true) /\
       (forall c, robs r c -> h_mem s' c <> None) /\
       (forall c, c <> a -> ~ robs r c -> h_mem s' c = h_mem s c))
    (fun s' e => ((e = UserExn /\ (copies r = true -> env_copyable t = true)) \/
        (e = NotCopyConstructible t /\ copies r = true /\ env_copyable t = false)) /\
       (moves r = true -> env_nt_move t = false) /\
       (forall c, robs r c -> h_mem s' c <> None) /\
       (forall c, ~ robs r c -> h_mem s' c = h_mem s c)).
Proof.
  intros G A. destruct r as [b|b|y|b|b]; cbn in *; unfold vh_copy.
  all: try (destruct (env_copyable t) eqn:K; [|apply wp_throw; repeat split; auto; try discriminate; intros c []]).
  all: try subst y.
  all: eapply wp_mono; [first [apply wp_t_copy; eassumption|apply wp_t_make; eassumption|apply wp_t_move; eassumption]| |]; cbn.
  all: intros s' ?; intuition (subst; auto; try discriminate).
Qed.

(** ** Loops *)

Lemma wp_s_destroy n : forall a s, alive_cells s a n ->
  wp (s_destroy al a n) s (fun s' _ => vacant s' a n /\ elsewhere s s' a n) (fun _ _ => False).
Proof.
  induction n as [|n IH]; intros a s L; cbn [s_destroy].
  - apply wp_ret. split; [intros i Hi; lia|intros b _; reflexivity].
  - apply wp_bind. eapply wp_mono; [apply wp_t_end| |intros ? ? []].
    { specialize (L 0). rewrite Nat.add_0_r in L. apply L. lia. }
    intros s1 _ (A1 & R1). eapply wp_mono; [apply IH| |auto].
    { intros i Hi. rewrite R1 by lia. specialize (L (S i)). rewrite <- Nat.add_succ_comm in L. apply L. lia. }
    intros s2 _ (V2 & R2). split.
    + intros [|i] Hi.
      * rewrite Nat.add_0_r, R2 by lia. auto.
      * rewrite <- Nat.add_succ_comm. apply V2. lia.
    + intros b Hb. rewrite R2, R1 by lia. reflexivity.
Qed.

Lemma live_some s a : h_mem s a <> None -> exists x, h_mem s a = Some x.
Proof. destruct (h_mem s a); [eauto|congruence]. Qed.

Lemma wp_s_move n : storable t -> forall d a s, d < a ->
  alive_cells s d n -> alive_cells s a n ->
  wp (s_move t d a n) s
    (fun s' _ => (forall i, i < n -> h_mem s' (d + i) = h_mem s (a + i)) /\
       (forall b, h_mem s b <> None -> h_mem s' b <> None) /\ (forall b, h_mem s b = None -> h_mem s' b = None) /\
       elsewhere s s' d (a - d + n))
    (fun s' e => assign_threw t e /\
       (forall b, h_mem s b <> None -> h_mem s' b <> None) /\ (forall b, h_mem s b = None -> h_mem s' b = None) /\
       elsewhere s s' d (a - d + n)).
Proof.
  intros F. induction n as [|n IH]; intros d a s Lt Ld La; cbn [s_move].
  - apply wp_ret. repeat split; auto; try (intros; lia).
  - assert (A0 : h_mem s a <> None) by (specialize (La 0); rewrite Nat.add_0_r in La; apply La; lia).
    assert (D0 : h_mem s d <> None) by (specialize (Ld 0); rewrite Nat.add_0_r in Ld; apply Ld; lia).
    destruct (live_some _ _ A0) as (x & Hx). apply wp_bind.
    eapply wp_mono; [apply (wp_vh_assign d a s x); auto; lia| |].
    + intros s1 _ (D1 & A1 & R1).
      assert (Al : forall b, h_mem s b <> None -> h_mem s1 b <> None).
      { intros b Hb. destruct (Nat.eq_dec b d) as [->|]; [congruence|]. destruct (Nat.eq_dec b a) as [->|]; [auto|]. rewrite R1; auto. }
      assert (Va : forall b, h_mem s b = None -> h_mem s1 b = None).
      { intros b Hb. rewrite R1; auto; intros ->; congruence. }
      eapply wp_mono; [apply IH; try lia| |].
      * intros i Hi. apply Al. specialize (Ld (S i)). rewrite <- Nat.add_succ_comm in Ld. apply Ld. lia.
      * intros i Hi. apply Al. specialize (La (S i)). rewrite <- Nat.add_succ_comm in La. apply La. lia.
      * intros s2 _ (C2 & Al2 & Va2 & R2). repeat split; auto.
        -- intros [|i] Hi.
           ++ rewrite !Nat.add_0_r, R2 by lia. congruence.
           ++ rewrite <- !Nat.add_succ_comm, C2, R1 by lia. reflexivity.
        -- intros b Hb. rewrite R2, R1 by lia. reflexivity.
      * intros s2 e (Th & Al2 & Va2 & R2). repeat split; auto; try apply Th.
        intros b Hb. rewrite R2, R1 by lia. reflexivity.
    + intros s1 e (E1 & E2 & E3 & A1 & B1 & R1). repeat split; auto.
      * intros b Hb. destruct (Nat.eq_dec b d) as [->|]; [auto|]. destruct (Nat.eq_dec b a) as [->|]; [auto|]. rewrite R1; auto.
      * intros b Hb. rewrite R1; auto; intros ->; congruence.
      * intros b Hb. rewrite R1 by lia. reflexivity.
Qed.

Lemma wp_s_move_back n : storable t -> forall d a s, a < d ->
  alive_cells s d n -> alive_cells s a n ->
  wp (s_move_back t d a n) s
    (fun s' _ => (forall i, i < n -> h_mem s' (d + i) = h_mem s (a + i)) /\
       (forall b, h_mem s b <> None -> h_mem s' b <> None) /\ (forall b, h_mem s b = None -> h_mem s' b = None) /\
       elsewhere s s' a (d - a + n))
    (fun s' e => assign_threw t e /\
       (forall b, h_mem s b <> None -> h_mem s' b <> None) /\ (forall b, h_mem s b = None -> h_mem s' b = None) /\
       elsewhere s s' a (d - a + n)).
Proof.
  intros F. induction n as [|n IH]; intros d a s Lt Ld La; cbn [s_move_back].
  - apply wp_ret. repeat split; auto; try (intros; lia).
  - assert (A0 : h_mem s (a + n) <> None) by (apply La; lia).
    assert (D0 : h_mem s (d + n) <> None) by (apply Ld; lia).
    destruct (live_some _ _ A0) as (x & Hx). apply wp_bind.
    eapply wp_mono; [apply (wp_vh_assign (d + n) (a + n) s x); auto; lia| |].
    + intros s1 _ (D1 & A1 & R1).
      assert (Al : forall b, h_mem s b <> None -> h_mem s1 b <> None).
      { intros b Hb. destruct (Nat.eq_dec b (d + n)) as [->|]; [congruence|]. destruct (Nat.eq_dec b (a + n)) as [->|]; [auto|]. rewrite R1; auto. }
      assert (Va : forall b, h_mem s b = None -> h_mem s1 b = None).
      { intros b Hb. rewrite R1; auto; intros ->; congruence. }
      eapply wp_mono; [apply IH; try lia| |].
      * intros i Hi. apply Al. apply Ld. lia.
      * intros i Hi. apply Al. apply La. lia.
      * intros s2 _ (C2 & Al2 & Va2 & R2). repeat split; auto.
        -- intros i Hi. destruct (Nat.eq_dec i n) as [->|].
           ++ rewrite R2 by lia. congruence.
           ++ rewrite C2, R1 by lia. reflexivity.
        -- intros b Hb. rewrite R2, R1 by lia. reflexivity.
      * intros s2 e (Th & Al2 & Va2 & R2). repeat split; auto; try apply Th.
        intros b Hb. rewrite R2, R1 by lia. reflexivity.
    + intros s1 e (E1 & E2 & E3 & A1 & B1 & R1). repeat split; auto.
      * intros b Hb. destruct (Nat.eq_dec b (d + n)) as [->|]; [auto|]. destruct (Nat.eq_dec b (a + n)) as [->|]; [auto|]. rewrite R1; auto.
      * intros b Hb. rewrite R1; auto; intros ->; congruence.
      * intros b Hb. rewrite R1 by lia. reflexivity.
Qed.


Lemma reads_gives cp (f : nat -> hsrc V) s a x : reads cp f -> h_mem s a = Some x -> gives s (f a) x.
Proof. unfold reads. destruct cp; intros [-> | ->]; auto. Qed.
Lemma reads_robs cp (f : nat -> hsrc V) a c : reads cp f -> (robs (f a) c <-> cp = false /\ a = c).
Proof. unfold reads. destruct cp; intros [-> | ->]; cbn; intuition congruence. Qed.
Lemma reads_copies cp (f : nat -> hsrc V) a : reads cp f -> copies (f a) = cp.
Proof. unfold reads. destruct cp; intros [-> | ->]; auto. Qed.
Lemma reads_moves cp (f : nat -> hsrc V) a : reads cp f -> moves (f a) = negb cp.
Proof. unfold reads. destruct cp; intros [-> | ->]; auto. Qed.

Lemma wp_build1 v cp f d a s : reads cp f -> h_mem s d = None -> h_mem s a <> None ->
  wp (vh_ctor t v d (f a)) s
    (fun s' _ => h_mem s' d = h_mem s a /\ h_mem s' a <> None /\ (cp = true -> h_mem s' a = h_mem s a) /\
       (forall c, c <> d -> c <> a -> h_mem s' c = h_mem s c))
    (fun s' e => built_threw t cp e /\ h_mem s' d = None /\ h_mem s' a <> None /\ (cp = true -> h_mem s' a = h_mem s a) /\
       (forall c, c <> d -> c <> a -> h_mem s' c = h_mem s c)).
Proof.
  intros R D A. destruct (live_some _ _ A) as (x & Hx). assert (N : a <> d) by (intros ->; congruence).
  eapply wp_mono; [apply (wp_vh_ctor v d (f a) s x); [eapply reads_gives; eauto|auto]| |].
  - intros s' _ (H1 & _ & H3 & H4). pose proof (fun c => reads_robs cp f a c R) as Q.
    repeat split.
    + congruence.
    + destruct cp; [rewrite H4; auto; rewrite Q; intros []; discriminate|apply H3, Q; auto].
    + intros ->. apply H4; auto. rewrite Q. intros []; discriminate.
    + intros c C1 C2. apply H4; auto. rewrite Q. intros []; congruence.
  - intros s' e (H1 & H2 & H3 & H4). pose proof (fun c => reads_robs cp f a c R) as Q.
    rewrite (reads_copies _ _ _ R) in H1. rewrite (reads_moves _ _ _ R) in H2. repeat split.
    + destruct H1 as [[]|]; auto.
    + intros ->. apply H2. reflexivity.
    + rewrite H4; auto. rewrite Q. intros []; congruence.
    + destruct cp; [rewrite H4; auto; rewrite Q; intros []; discriminate|apply H3, Q; auto].
    + intros ->. apply H4; auto. rewrite Q. intros []; discriminate.
    + intros c C1 C2. apply H4; auto. rewrite Q. intros []; congruence.
Qed.

Lemma wp_s_build cp f n : reads cp f -> forall d a s, vacant s d n -> alive_cells s a n ->
  wp (s_build t al f d a n) s
    (fun s' _ => (forall i, i < n -> h_mem s' (d + i) = h_mem s (a + i)) /\ alive_cells s' a n /\
       (cp = true -> forall i, i < n -> h_mem s' (a + i) = h_mem s (a + i)) /\ elsewhere2 s s' d n a n)
    (fun s' e => built_threw t cp e /\ vacant s' d n /\ alive_cells s' a n /\
       (cp = true -> forall i, i < n -> h_mem s' (a + i) = h_mem s (a + i)) /\ elsewhere2 s s' d n a n).
Proof.
  intros R. induction n as [|n IH]; intros d a s Vd La; cbn [s_build].
  - apply wp_ret. repeat split; auto; try (intros ? ?; lia); try (intros ? ? ?; lia); try (intros ? _ _; reflexivity).
  - assert (A0 : h_mem s a <> None) by (specialize (La 0); rewrite Nat.add_0_r in La; apply La; lia).
    assert (D0 : h_mem s d = None) by (specialize (Vd 0); rewrite Nat.add_0_r in Vd; apply Vd; lia).
    assert (Ap : forall i j, i < S n -> j < S n -> d + i <> a + j).
    { intros i j Hi Hj K. apply (La j Hj). rewrite <- K. apply Vd. auto. }
    assert (Ap0 : forall i, i < n -> d <> S (a + i)).
    { intros i Hi K. apply (Ap 0 (S i)); lia. }
    assert (Ap1 : forall i, i < n -> a <> S (d + i)).
    { intros i Hi K. apply (Ap (S i) 0); lia. }
    apply wp_bind. unfold ad_construct. eapply wp_mono; [apply (wp_build1 (Through al) cp f d a s R D0 A0)| |].
    + intros s1 _ (D1 & A1 & P1 & R1). apply wp_try. eapply wp_mono; [apply IH| |].
      * intros i Hi. cbn. rewrite R1 by (try specialize (Ap1 i Hi); lia). specialize (Vd (S i)). rewrite <- plus_n_Sm in Vd. apply Vd. lia.
      * intros i Hi. cbn. rewrite R1 by (try specialize (Ap0 i Hi); lia). specialize (La (S i)). rewrite <- plus_n_Sm in La. apply La. lia.
      * intros s2 _ (C2 & L2 & P2 & R2). repeat split.
        -- intros [|i] Hi.
           ++ rewrite !Nat.add_0_r. rewrite R2; [auto|lia|intros K; apply (Ap0 (d - S a)); lia].
           ++ rewrite <- !Nat.add_succ_comm, C2 by lia. apply R1; [specialize (Ap0 i)|]; lia.
        -- intros [|i] Hi.
           ++ rewrite Nat.add_0_r. rewrite R2; [auto|intros K; apply (Ap1 (a - S d)); lia|lia].
           ++ rewrite <- Nat.add_succ_comm. apply L2. lia.
        -- intros Hc [|i] Hi.
           ++ rewrite Nat.add_0_r. rewrite R2; [auto|intros K; apply (Ap1 (a - S d)); lia|lia].
           ++ rewrite <- Nat.add_succ_comm, P2 by (auto; lia). apply R1; [specialize (Ap0 i)|]; lia.
        -- intros b H1 H2. rewrite R2, R1 by lia. reflexivity.
      * intros s2 e (Th & V2 & L2 & P2 & R2).
        assert (D2 : h_mem s2 d <> None).
        { rewrite R2; [congruence|lia|intros K; apply (Ap0 (d - S a)); lia]. }
        eapply wp_mono; [apply wp_t_end; exact D2| |intros ? ? []].
        intros s3 _ (D3 & R3). repeat split; try apply Th.
        -- intros [|i] Hi; [now rewrite Nat.add_0_r|]. rewrite R3 by lia. rewrite <- Nat.add_succ_comm. apply V2. lia.
        -- intros [|i] Hi.
           ++ rewrite Nat.add_0_r, R3 by (specialize (Ap 0 0); lia). rewrite R2; [auto|intros K; apply (Ap1 (a - S d)); lia|lia].
           ++ rewrite R3 by (specialize (Ap 0 (S i)); lia). rewrite <- Nat.add_succ_comm. apply L2. lia.
        -- intros Hc [|i] Hi.
           ++ rewrite Nat.add_0_r, R3 by (specialize (Ap 0 0); lia). rewrite R2; [auto|intros K; apply (Ap1 (a - S d)); lia|lia].
           ++ rewrite R3 by (specialize (Ap 0 (S i)); lia). rewrite <- Nat.add_succ_comm, P2 by (auto; lia). apply R1; [specialize (Ap0 i)|]; lia.
        -- intros b H1 H2. rewrite R3, R2, R1 by lia. reflexivity.
    + intros s1 e (Th & D1 & A1 & P1 & R1). repeat split; try apply Th.
      * intros [|i] Hi; [now rewrite Nat.add_0_r|]. rewrite R1 by (try specialize (Ap (S i) 0); lia). apply Vd. lia.
      * intros [|i] Hi; [now rewrite Nat.add_0_r|]. rewrite R1 by (try specialize (Ap 0 (S i)); lia). apply La. lia.
      * intros Hc [|i] Hi; [rewrite Nat.add_0_r; auto|]. apply R1; [specialize (Ap 0 (S i))|]; lia.
      * intros b H1 H2. apply R1; lia.
Qed.

Lemma wp_s_assign_from cp f tmp n : storable t -> reads cp f -> forall d a s,
  h_mem s tmp = None -> alive_cells s d n -> alive_cells s a n -> apart d n a n ->
  wp (s_assign_from t f tmp d a n) s
    (fun s' _ => (forall i, i < n -> h_mem s' (d + i) = h_mem s (a + i)) /\ alive_cells s' a n /\ h_mem s' tmp = None /\
       (cp = true -> forall i, i < n -> h_mem s' (a + i) = h_mem s (a + i)) /\ elsewhere2 s s' d n a n)
    (fun s' e => (built_threw t cp e \/ assign_threw t e) /\ alive_cells s' d n /\ alive_cells s' a n /\ h_mem s' tmp = None /\
       (cp = true -> forall i, i < n -> h_mem s' (a + i) = h_mem s (a + i)) /\ elsewhere2 s s' d n a n).
Proof.
  intros F R. induction n as [|n IH]; intros d a s T0 Ld La Ap; cbn [s_assign_from].
  - apply wp_ret. repeat split; auto; try (intros ? ?; lia); try (intros ? ? ?; lia); try (intros ? _ _; reflexivity).
  - unfold apart in Ap.
    assert (A0 : h_mem s a <> None) by (specialize (La 0); rewrite Nat.add_0_r in La; apply La; lia).
    assert (D0 : h_mem s d <> None) by (specialize (Ld 0); rewrite Nat.add_0_r in Ld; apply Ld; lia).
    assert (Td : forall i, i < S n -> d + i <> tmp) by (intros i Hi <-; apply (Ld i Hi); auto).
    assert (Ta : forall i, i < S n -> a + i <> tmp) by (intros i Hi <-; apply (La i Hi); auto).
    assert (Td0 : d <> tmp) by (intros ->; auto). assert (Ta0 : a <> tmp) by (intros ->; auto).
    apply wp_bind. eapply wp_mono; [apply (wp_build1 Direct cp f tmp a s R T0 A0)| |].
    + intros s1 _ (T1 & A1 & P1 & R1). apply wp_bind. apply wp_try.
      destruct (live_some _ _ A0) as (x & Hx). rewrite Hx in T1.
      assert (D1 : h_mem s1 d <> None) by (rewrite R1 by lia; auto).
      eapply wp_mono; [apply (wp_vh_assign d tmp s1 x F Td0 T1 D1)| |].
      * intros s2 _ (D2 & T2 & R2). apply wp_bind. unfold vh_dtor. eapply wp_mono; [apply wp_t_end; exact T2| |intros ? ? []].
        intros s3 _ (T3 & R3).
        assert (Same : forall c, c <> tmp -> c <> a -> c <> d -> h_mem s3 c = h_mem s c).
        { intros c C1 C2 C3. rewrite R3, R2, R1 by auto. reflexivity. }
        eapply wp_mono; [apply IH| |].
        -- exact T3.
        -- intros i Hi. cbn. rewrite Same; try (specialize (Td (S i)); lia). specialize (Ld (S i)). rewrite <- plus_n_Sm in Ld. apply Ld. lia.
        -- intros i Hi. cbn. rewrite Same; try (specialize (Ta (S i)); lia). specialize (La (S i)). rewrite <- plus_n_Sm in La. apply La. lia.
        -- unfold apart. lia.
        -- intros s4 _ (C4 & L4 & T4 & P4 & R4). repeat split; auto.
           ++ intros [|i] Hi.
              ** rewrite !Nat.add_0_r. rewrite R4, R3 by lia. congruence.
              ** rewrite <- !Nat.add_succ_comm, C4 by lia. apply Same; specialize (Ta (S i)); lia.
           ++ intros [|i] Hi.
              ** rewrite Nat.add_0_r. rewrite R4, R3, R2 by lia. auto.
              ** rewrite <- !Nat.add_succ_comm. apply L4. lia.
           ++ intros Hc [|i] Hi.
              ** rewrite Nat.add_0_r. rewrite R4, R3, R2 by lia. auto.
              ** rewrite <- !Nat.add_succ_comm, P4 by (auto; lia). apply Same; specialize (Ta (S i)); lia.
           ++ intros b H1 H2. destruct (Nat.eq_dec b tmp) as [->|]; [congruence|]. rewrite R4, Same by lia. reflexivity.
        -- intros s4 e (Th & Ld4 & L4 & T4 & P4 & R4). repeat split; auto.
           ++ intros [|i] Hi.
              ** rewrite !Nat.add_0_r. rewrite R4, R3 by lia. congruence.
              ** rewrite <- !Nat.add_succ_comm. apply Ld4. lia.
           ++ intros [|i] Hi.
              ** rewrite Nat.add_0_r. rewrite R4, R3, R2 by lia. auto.
              ** rewrite <- !Nat.add_succ_comm. apply L4. lia.
           ++ intros Hc [|i] Hi.
              ** rewrite Nat.add_0_r. rewrite R4, R3, R2 by lia. auto.
              ** rewrite <- !Nat.add_succ_comm, P4 by (auto; lia). apply Same; specialize (Ta (S i)); lia.
           ++ intros b H1 H2. destruct (Nat.eq_dec b tmp) as [->|]; [congruence|]. rewrite R4, Same by lia. reflexivity.
      * intros s2 e (E1 & E2 & E3 & D2 & T2 & R2). eapply wp_mono; [apply wp_t_end; exact T2| |intros ? ? []].
        intros s3 _ (T3 & R3).
        assert (Same : forall c, c <> tmp -> c <> a -> c <> d -> h_mem s3 c = h_mem s c).
        { intros c C1 C2 C3. rewrite R3, R2, R1 by auto. reflexivity. }
        repeat split; auto.
        -- right. split; auto.
        -- intros [|i] Hi.
           ++ rewrite Nat.add_0_r, R3 by lia. auto.
           ++ rewrite Same by (specialize (Td (S i)); lia). apply Ld. lia.
        -- intros [|i] Hi.
           ++ rewrite Nat.add_0_r, R3, R2 by lia. auto.
           ++ rewrite Same by (specialize (Ta (S i)); lia). apply La. lia.
        -- intros Hc [|i] Hi.
           ++ rewrite Nat.add_0_r, R3, R2 by lia. auto.
           ++ apply Same; specialize (Ta (S i)); lia.
        -- intros b H1 H2. destruct (Nat.eq_dec b tmp) as [->|]; [congruence|]. apply Same; lia.
    + intros s1 e (Th & T1 & A1 & P1 & R1). repeat split; auto.
      * intros i Hi. rewrite R1 by (specialize (Td i Hi); lia). auto.
      * intros [|i] Hi; [now rewrite Nat.add_0_r|]. rewrite R1 by (specialize (Ta (S i) Hi); lia). auto.
      * intros Hc [|i] Hi; [rewrite Nat.add_0_r; auto|]. apply R1; specialize (Ta (S i) Hi); lia.
      * intros b H1 H2. destruct (Nat.eq_dec b tmp) as [->|]; [congruence|]. apply R1; lia.
Qed.


(** ** Whole operations *)

Lemma nth_fst {A} k (l : list A) i : i < k -> nth_error (firstn k l) i = nth_error l i.
Proof. revert k i. induction l as [|x l IH]; intros [|k] [|i] H; cbn; auto; try lia. apply IH. lia. Qed.
Lemma nth_skp {A} k (l : list A) i : nth_error (skipn k l) i = nth_error l (k + i).
Proof. revert k. induction l as [|x l IH]; intros [|k]; cbn; auto. destruct i; auto. Qed.

Lemma nth_remove {A} f l (xs : list A) i : f <= l -> l <= length xs ->
  nth_error (remove_range f l xs) i = if i <? f then nth_error xs i else nth_error xs (i + (l - f)).
Proof.
  intros H1 H2. unfold remove_range. destruct (i <? f) eqn:K.
  - apply Nat.ltb_lt in K. rewrite nth_error_app1 by (rewrite firstn_length; lia). now apply nth_fst.
  - apply Nat.ltb_ge in K. rewrite nth_error_app2, nth_skp, firstn_length by (rewrite firstn_length; lia). f_equal. lia.
Qed.

Lemma nth_insert_list {A} k (ys xs : list A) i : k <= length xs ->
  nth_error (insert_list_at k ys xs) i =
    if i <? k then nth_error xs i else if i <? k + length ys then nth_error ys (i - k) else nth_error xs (i - length ys).
Proof.
  intros H. unfold insert_list_at. destruct (i <? k) eqn:K.
  - apply Nat.ltb_lt in K. rewrite nth_error_app1 by (rewrite firstn_length; lia). now apply nth_fst.
  - apply Nat.ltb_ge in K. rewrite nth_error_app2, firstn_length by (rewrite firstn_length; lia).
    replace (Nat.min k (length xs)) with k by lia. destruct (i <? k + length ys) eqn:K2.
    + apply Nat.ltb_lt in K2. rewrite nth_error_app1 by lia. reflexivity.
    + apply Nat.ltb_ge in K2. rewrite nth_error_app2, nth_skp by lia. f_equal. lia.
Qed.

Lemma insert_one {A} k (x : A) l : insert_at k x l = insert_list_at k [x] l.
Proof. reflexivity. Qed.

Lemma holds_alive s a xs : holds s a xs -> alive_cells s a (length xs).
Proof. intros H i Hi. rewrite H by auto. apply nth_error_Some. auto. Qed.

Lemma wp_s_erase base xs f l s : storable t -> holds s base xs -> f <= l -> l <= length xs ->
  wp (s_erase t al base (length xs) f l) s
    (fun s' _ => holds s' base (remove_range f l xs) /\ vacant s' (base + (length xs - (l - f))) (l - f) /\
       elsewhere s s' base (length xs))
    (fun s' e => assign_threw t e /\ alive_cells s' base (length xs) /\ elsewhere s s' base (length xs)).
Proof.
  intros F H Hf Hl. pose proof (holds_alive _ _ _ H) as L. unfold s_erase. destruct (f =? l) eqn:K.
  - apply Nat.eqb_eq in K. subst l. apply wp_ret. split; [|split].
    + intros i Hi. rewrite nth_remove by lia. rewrite H by (rewrite remove_range_length in Hi; lia).
      replace (i + (f - f)) with i by lia. now destruct (i <? f).
    + intros i Hi. lia.
    + intros b _. reflexivity.
  - apply Nat.eqb_neq in K. apply wp_bind. eapply wp_mono; [apply wp_s_move; auto; try lia| |].
    + intros i Hi. rewrite <- Nat.add_assoc. apply L. lia.
    + intros i Hi. rewrite <- Nat.add_assoc. apply L. lia.
    + intros s1 _ (C1 & A1 & _ & R1). eapply wp_mono; [apply wp_s_destroy| |intros ? ? []].
      { intros i Hi. apply A1. rewrite <- !Nat.add_assoc. apply L. lia. }
      intros s2 _ (V2 & R2). split; [|split].
      * intros i Hi. rewrite remove_range_length in Hi by lia. rewrite nth_remove by lia.
        rewrite R2 by lia. destruct (i <? f) eqn:Ki.
        -- apply Nat.ltb_lt in Ki. rewrite R1 by lia. apply H. lia.
        -- apply Nat.ltb_ge in Ki. replace (base + i) with (base + f + (i - f)) by lia. rewrite C1 by lia.
           rewrite <- H by lia. f_equal. lia.
      * intros i Hi. replace (base + (length xs - (l - f)) + i) with (base + f + (length xs - l) + i) by lia. apply V2. lia.
      * intros b Hb. rewrite R2, R1 by lia. reflexivity.
    + intros s1 e (Th & A1 & _ & R1). split; [exact Th|split].
      * intros i Hi. apply A1. apply L. auto.
      * intros b Hb. apply R1. lia.
Qed.

Lemma wp_s_emplace base xs k tmp r v s : storable t -> holds s base xs -> k <= length xs ->
  h_mem s (base + length xs) = None -> h_mem s tmp = None -> tmp <> base + length xs ->
  gives s r v -> (forall c, robs r c -> ~ (base <= c < base + length xs)) ->
  wp (s_emplace t al base (length xs) k tmp r) s
    (fun s' _ => holds s' base (insert_at k v xs) /\ h_mem s' tmp = None /\
       (forall c, robs r c -> h_mem s' c <> None) /\
       (forall c, ~ robs r c -> ~ (base <= c <= base + length xs) -> h_mem s' c = h_mem s c))
    (fun s' e => h_mem s' tmp = None /\ (forall c, robs r c -> h_mem s' c <> None) /\
       (forall c, ~ robs r c -> ~ (base <= c <= base + length xs) -> h_mem s' c = h_mem s c) /\
       (made_threw t r e /\ holds s' base xs /\ h_mem s' (base + length xs) = None \/
        shift_threw t e /\ alive_cells s' base (length xs))).
Proof.
  intros F H Hk N0 T0 Nt G Rb. pose proof (holds_alive _ _ _ H) as L. unfold s_emplace, ad_construct.
  assert (Tn : ~ (base <= tmp <= base + length xs)).
  { intros K. destruct (Nat.eq_dec tmp (base + length xs)); [contradiction|]. apply (L (tmp - base)); [lia|].
    replace (base + (tmp - base)) with tmp by lia. auto. }
  assert (Rl : forall c, robs r c -> h_mem s c <> None).
  { intros c Hc. destruct r; cbn in *; subst; try contradiction; congruence. }
  assert (Rt : ~ robs r tmp) by (intros K; apply (Rl _ K); auto).
  assert (Rn : ~ robs r (base + length xs)) by (intros K; apply (Rl _ K); auto).
  assert (Rx : forall i, i < length xs -> ~ robs r (base + i)).
  { intros i Hi K. apply (Rb _ K). lia. }
  destruct (k =? length xs) eqn:K.
  - apply Nat.eqb_eq in K. subst k. eapply wp_mono; [apply (wp_vh_ctor (Through al) (base + length xs) r s v G N0)| |].
    + intros s1 _ (A1 & _ & L1 & R1). split; [|repeat split; auto].
      * intros i Hi. rewrite insert_one, nth_insert_list by lia. rewrite insert_one, insert_list_at_length in Hi by lia. cbn [length] in *.
        destruct (i <? length xs) eqn:Ki.
        -- apply Nat.ltb_lt in Ki. rewrite R1 by (auto; lia). auto.
        -- apply Nat.ltb_ge in Ki. assert (i = length xs) by lia. subst i. rewrite A1.
           replace (length xs <? length xs + 1) with true by (symmetry; apply Nat.ltb_lt; lia). now rewrite Nat.sub_diag.
      * rewrite R1; auto.
      * intros c C1 C2. apply R1; auto. lia.
    + intros s1 e (E1 & E2 & L1 & R1). repeat split; auto.
      * rewrite R1; auto.
      * left. split; [|split].
        -- split; auto. destruct E1 as [[]|]; auto.
        -- intros i Hi. rewrite R1; auto.
        -- rewrite R1; auto.
  - apply Nat.eqb_neq in K. apply wp_bind. eapply wp_mono; [apply (wp_vh_ctor (Through al) tmp r s v G T0)| |].
    + intros s1 _ (A1 & _ & L1 & R1). apply wp_bind. apply wp_try.
      assert (X1 : forall i, i < length xs -> h_mem s1 (base + i) = nth_error xs i).
      { intros i Hi. rewrite R1; auto. lia. }
      assert (X1' : alive_cells s1 base (length xs)).
      { intros i Hi. rewrite X1 by auto. apply nth_error_Some. auto. }
      assert (N1 : h_mem s1 (base + length xs) = None) by (rewrite R1; auto).
      assert (La1 : h_mem s1 (base + length xs - 1) <> None).
      { replace (base + length xs - 1) with (base + (length xs - 1)) by lia. apply X1'. lia. }
      (* what holds of the cells outside, whatever happens to the store *)
      assert (Out : forall s2, (forall c, c <> tmp -> ~ (base <= c <= base + length xs) -> h_mem s2 c = h_mem s1 c) -> h_mem s2 tmp <> None ->
        forall (Q : hst V -> unit -> Prop), (forall s3, h_mem s3 tmp = None -> (forall c, c <> tmp -> h_mem s3 c = h_mem s2 c) ->
           (forall c, robs r c -> h_mem s3 c <> None) ->
           (forall c, ~ robs r c -> ~ (base <= c <= base + length xs) -> h_mem s3 c = h_mem s c) -> Q s3 tt) ->
        forall X, wp (ad_destroy al tmp) s2 Q X).
      { intros s2 O2 T2 Q HQ X. eapply wp_mono; [apply wp_t_end; exact T2| |intros ? ? []]. intros s3 [] (T3 & R3). apply HQ; auto.
        - intros c Hc. assert (c <> tmp) by congruence. assert (~ (base <= c <= base + length xs)).
          { intros Z. apply (Rb c Hc). destruct (Nat.eq_dec c (base + length xs)); [subst; contradiction|lia]. }
          rewrite R3, O2 by auto. auto.
        - intros c Hc Z. destruct (Nat.eq_dec c tmp) as [->|]; [congruence|]. rewrite R3, O2, R1; auto. }
      apply wp_bind. eapply wp_mono.
      { eapply (wp_build1 (Through al) false MoveH (base + length xs) (base + length xs - 1) s1); [right; reflexivity|exact N1|exact La1]. }
      * intros s2 _ (N2 & La2 & _ & R2). apply wp_bind.
        assert (Al2 : alive_cells s2 base (S (length xs))).
        { intros i Hi. destruct (Nat.eq_dec i (length xs)) as [->|]; [congruence|].
          destruct (Nat.eq_dec i (length xs - 1)) as [->|].
          - replace (base + (length xs - 1)) with (base + length xs - 1) by lia. auto.
          - rewrite R2 by lia. apply X1'. lia. }
        assert (T2 : h_mem s2 tmp = Some v) by (rewrite R2 by lia; auto).
        eapply wp_mono; [apply (wp_s_move_back (length xs - 1 - k) F (base + k + 1) (base + k) s2); try lia| |].
        -- intros i Hi. rewrite <- !Nat.add_assoc. apply Al2. lia.
        -- intros i Hi. rewrite <- !Nat.add_assoc. apply Al2. lia.
        -- intros s3 _ (C3 & Al3 & Va3 & R3).
           assert (T3 : h_mem s3 tmp = Some v) by (rewrite R3 by lia; auto).
           assert (K3 : h_mem s3 (base + k) <> None) by (apply Al3, Al2; lia).
           eapply wp_mono; [apply (wp_vh_assign (base + k) tmp s3 v F); auto; lia| |].
           ++ intros s4 _ (K4 & T4 & R4). apply Out; auto.
              { intros c C1 C2. rewrite R4, R3, R2 by lia. reflexivity. }
              intros s5 T5 R5 L5 O5. split; [|auto]. intros i Hi.
              rewrite insert_one, nth_insert_list by lia. rewrite insert_one, insert_list_at_length in Hi by lia. cbn [length] in *.
              rewrite R5 by lia. destruct (i <? k) eqn:Ki.
              ** apply Nat.ltb_lt in Ki. rewrite R4, R3, R2 by lia. apply X1. lia.
              ** apply Nat.ltb_ge in Ki. destruct (i <? k + 1) eqn:Kj.
                 --- apply Nat.ltb_lt in Kj. assert (i = k) by lia. subst i. rewrite K4. now rewrite Nat.sub_diag.
                 --- apply Nat.ltb_ge in Kj. rewrite R4 by lia. destruct (Nat.eq_dec i (length xs)) as [->|].
                     +++ rewrite R3 by lia. rewrite N2. rewrite <- X1 by lia. f_equal. lia.
                     +++ replace (base + i) with (base + k + 1 + (i - k - 1)) by lia. rewrite C3, R2 by lia.
                         rewrite <- X1 by lia. f_equal. lia.
           ++ intros s4 e (E1 & E2 & E3 & K4 & T4 & R4). apply Out; auto.
              { intros c C1 C2. rewrite R4, R3, R2 by lia. reflexivity. }
              intros s5 T5 R5 L5 O5. repeat split; auto. right. split; [right; split; auto|].
              intros i Hi. rewrite R5 by lia. destruct (Nat.eq_dec i k) as [->|]; [auto|]. rewrite R4 by lia. apply Al3, Al2. lia.
        -- intros s3 e (Th & Al3 & Va3 & R3). apply Out.
           ++ intros c C1 C2. rewrite R3, R2 by lia. reflexivity.
           ++ apply Al3. congruence.
           ++ intros s5 T5 R5 L5 O5. repeat split; auto. right. split; [right; auto|].
              intros i Hi. rewrite R5 by lia. apply Al3, Al2. lia.
      * intros s2 e (Th & N2 & La2 & _ & R2). apply Out.
        -- intros c C1 C2. rewrite R2 by lia. reflexivity.
        -- rewrite R2 by lia. congruence.
        -- intros s5 T5 R5 L5 O5. repeat split; auto. right. split.
           ++ left. destruct Th as ([->|(_ & ? & _)] & Th2); [auto|discriminate].
           ++ intros i Hi. rewrite R5 by lia. destruct (Nat.eq_dec i (length xs - 1)) as [->|].
              ** replace (base + (length xs - 1)) with (base + length xs - 1) by lia. auto.
              ** rewrite R2 by lia. apply X1'. auto.
    + intros s1 e (E1 & E2 & L1 & R1). repeat split; auto.
      * rewrite R1; auto.
      * left. split; [|split].
        -- split; auto. destruct E1 as [[]|]; auto.
        -- intros i Hi. rewrite R1; auto.
        -- rewrite R1; auto.
Qed.

Lemma wp_s_relocate base xs base' s : holds s base xs -> vacant s base' (length xs) ->
  wp (s_relocate t al base (length xs) base') s
    (fun s' _ => holds s' base' xs /\ vacant s' base (length xs) /\ elsewhere2 s s' base (length xs) base' (length xs))
    (fun s' e => env_nt_move t = false /\ (e = UserExn \/ e = NotCopyConstructible t /\ env_copyable t = false) /\
       holds s' base xs /\ vacant s' base' (length xs) /\ elsewhere2 s s' base (length xs) base' (length xs)).
Proof.
  intros H Vb. pose proof (holds_alive _ _ _ H) as L. unfold s_relocate. apply wp_bind.
  assert (D : forall s1, alive_cells s1 base (length xs) -> (forall i, i < length xs -> h_mem s1 (base' + i) = h_mem s (base + i)) ->
    elsewhere2 s s1 base' (length xs) base (length xs) -> forall X,
    wp (s_destroy al base (length xs)) s1
      (fun s' _ => holds s' base' xs /\ vacant s' base (length xs) /\ elsewhere2 s s' base (length xs) base' (length xs)) X).
  { intros s1 L1 C1 R1 X. eapply wp_mono; [apply wp_s_destroy; auto| |intros ? ? []].
    intros s2 _ (V2 & R2). split; [|split; auto].
    - intros i Hi. rewrite R2.
      + rewrite C1, H by auto. reflexivity.
      + intros K. apply (L (base' + i - base)); [lia|]. replace (base + (base' + i - base)) with (base' + i) by lia. apply Vb. auto.
    - intros c C2 C3. rewrite R2, R1 by auto. reflexivity. }
  destruct (env_nt_move t) eqn:Nt.
  - eapply wp_mono; [apply (wp_s_build false MoveH (length xs)); auto; right; reflexivity| |].
    + intros s1 _ (C1 & L1 & _ & R1). apply D; auto.
    + intros s1 e ((_ & Z) & _). rewrite Z in Nt by reflexivity. discriminate.
  - eapply wp_mono; [apply (wp_s_build true CopyH (length xs)); auto; right; reflexivity| |].
    + intros s1 _ (C1 & L1 & _ & R1). apply D; auto.
    + intros s1 e ((Z & _) & V1 & L1 & P1 & R1). repeat split; auto.
      * destruct Z as [|(? & _ & ?)]; auto.
      * intros i Hi. rewrite P1 by auto. auto.
      * intros c C2 C3. apply R1; auto.
Qed.


Lemma wp_s_insert base xs k tmp cp f src ys s : storable t -> reads cp f -> holds s base xs -> holds s src ys -> k <= length xs ->
  vacant s (base + length xs) (length ys) -> h_mem s tmp = None -> ~ (base <= tmp < base + length xs + length ys) ->
  apart base (length xs + length ys) src (length ys) ->
  wp (s_insert t al base (length xs) k tmp f src (length ys)) s
    (fun s' _ => holds s' base (insert_list_at k ys xs) /\ h_mem s' tmp = None /\ alive_cells s' src (length ys) /\
       (cp = true -> holds s' src ys) /\ elsewhere2 s s' base (length xs + length ys) src (length ys))
    (fun s' e => (built_threw t cp e \/ shift_threw t e) /\ h_mem s' tmp = None /\ alive_cells s' src (length ys) /\
       (cp = true -> holds s' src ys) /\ elsewhere2 s s' base (length xs + length ys) src (length ys) /\
       exists n, length xs <= n <= length xs + length ys /\ alive_cells s' base n /\ vacant s' (base + n) (length xs + length ys - n)).
Proof.
  intros F R H Hs Hk Vn T0 Tn Ap. pose proof (holds_alive _ _ _ H) as L. pose proof (holds_alive _ _ _ Hs) as Ls.
  unfold apart in Ap. unfold s_insert. set (n := length xs) in *. set (m := length ys) in *.
  assert (Ts : ~ (src <= tmp < src + m)).
  { intros Z. apply (Ls (tmp - src)); [lia|]. replace (src + (tmp - src)) with tmp by lia. auto. }
  destruct (m =? 0) eqn:Km.
  { apply Nat.eqb_eq in Km. apply wp_ret. split; [|repeat split; auto; intros c _ _; reflexivity].
    intros i Hi. rewrite nth_insert_list by auto. rewrite insert_list_at_length in Hi by auto. fold n m in Hi |- *. rewrite Km in *.
      rewrite H by (fold n; lia). replace (k + 0) with k by lia. destruct (i <? k); auto. now rewrite Nat.sub_0_r.
  }
  apply Nat.eqb_neq in Km. destruct (m <? n - k) eqn:K.
  - apply Nat.ltb_lt in K. apply wp_bind. eapply wp_mono; [apply (wp_s_build false MoveH m)| |].
    + right. reflexivity.
    + exact Vn.
    + intros i Hi. replace (base + n - m + i) with (base + (n - m + i)) by lia. apply L. lia.
    + intros s1 _ (C1 & L1 & _ & R1).
      assert (Al1 : alive_cells s1 base (n + m)).
      { intros i Hi. destruct (Nat.le_gt_cases n i).
        - replace (base + i) with (base + n + (i - n)) by lia. rewrite C1 by lia.
          replace (base + n - m + (i - n)) with (base + (i - m)) by lia. apply L. lia.
        - destruct (Nat.le_gt_cases (n - m) i).
          + replace (base + i) with (base + n - m + (i - (n - m))) by lia. apply L1. lia.
          + rewrite R1 by lia. apply L. lia. }
      apply wp_bind. eapply wp_mono; [apply (wp_s_move_back (n - m - k) F (base + k + m) (base + k) s1); try lia| |].
      * intros i Hi. rewrite <- !Nat.add_assoc. apply Al1. lia.
      * intros i Hi. rewrite <- !Nat.add_assoc. apply Al1. lia.
      * intros s2 _ (C2 & Al2 & Va2 & R2).
        assert (S2 : forall i, i < m -> h_mem s2 (src + i) = nth_error ys i).
        { intros i Hi. rewrite R2, R1 by lia. apply Hs. auto. }
        eapply wp_mono; [apply (wp_s_assign_from cp f tmp m F R (base + k) src s2)| |].
        -- apply Va2. rewrite R1 by lia. auto.
        -- intros i Hi. rewrite <- Nat.add_assoc. apply Al2, Al1. lia.
        -- intros i Hi. rewrite S2 by auto. apply nth_error_Some. auto.
        -- unfold apart. lia.
        -- intros s3 _ (C3 & L3 & T3 & P3 & R3). split; [|split; [auto|split; [auto|split]]].
           ++ intros i Hi. rewrite nth_insert_list by auto. rewrite insert_list_at_length in Hi by auto. fold n m in Hi |- *.
              destruct (i <? k) eqn:Ki.
              ** apply Nat.ltb_lt in Ki. rewrite R3, R2, R1 by lia. apply H. fold n. lia.
              ** apply Nat.ltb_ge in Ki. destruct (i <? k + m) eqn:Kj.
                 --- apply Nat.ltb_lt in Kj. replace (base + i) with (base + k + (i - k)) by lia. rewrite C3 by lia. apply S2. lia.
                 --- apply Nat.ltb_ge in Kj. rewrite R3 by lia. destruct (Nat.le_gt_cases n i).
                     +++ rewrite R2 by lia. replace (base + i) with (base + n + (i - n)) by lia. rewrite C1 by lia.
                         rewrite <- H by (fold n; lia). f_equal. lia.
                     +++ replace (base + i) with (base + k + m + (i - (k + m))) by lia. rewrite C2, R1 by lia.
                         rewrite <- H by (fold n; lia). f_equal. lia.
           ++ intros Hc i Hi. rewrite P3 by auto. apply S2. auto.
           ++ intros c Q1 Q2. rewrite R3, R2, R1 by lia. reflexivity.
        -- intros s3 e (Th & Ld3 & L3 & T3 & P3 & R3). split; [|split; [auto|split; [auto|split; [|split]]]].
           ++ destruct Th; [auto|right; right; auto].
           ++ intros Hc i Hi. rewrite P3 by auto. apply S2. auto.
           ++ intros c Q1 Q2. rewrite R3, R2, R1 by lia. reflexivity.
           ++ exists (n + m). split; [lia|split; [|intros i Hi; lia]]. intros i Hi.
              destruct (Nat.lt_ge_cases i k); [rewrite R3 by lia; apply Al2, Al1; lia|].
              destruct (Nat.lt_ge_cases i (k + m)).
              ** replace (base + i) with (base + k + (i - k)) by lia. apply Ld3. lia.
              ** rewrite R3 by lia. apply Al2, Al1. lia.
      * intros s2 e (Th & Al2 & Va2 & R2). split; [right; right; auto|]. split; [|split; [|split; [|split]]].
        -- apply Va2. rewrite R1 by lia. auto.
        -- intros i Hi. rewrite R2, R1 by lia. apply Ls. auto.
        -- intros Hc i Hi. rewrite R2, R1 by lia. apply Hs. auto.
        -- intros c Q1 Q2. rewrite R2, R1 by lia. reflexivity.
        -- exists (n + m). split; [lia|split; [|intros i Hi; lia]]. intros i Hi. apply Al2, Al1. auto.
    + intros s1 e (Th & V1 & L1 & _ & R1). split; [|split; [|split; [|split; [|split]]]].
      * right. left. destruct Th as ([->|(_ & ? & _)] & Th2); [auto|discriminate].
      * rewrite R1 by lia. auto.
      * intros i Hi. rewrite R1 by lia. apply Ls. auto.
      * intros Hc i Hi. rewrite R1 by lia. apply Hs. auto.
      * intros c Q1 Q2. rewrite R1 by lia. reflexivity.
      * exists n. split; [lia|split]. 2: { intros i Hi. apply V1. lia. } intros i Hi. destruct (Nat.le_gt_cases (n - m) i).
        -- replace (base + i) with (base + n - m + (i - (n - m))) by lia. apply L1. lia.
        -- rewrite R1 by lia. apply L. auto.
  - apply Nat.ltb_ge in K. set (r := n - k) in *. apply wp_bind. eapply wp_mono; [apply (wp_s_build cp f (m - r) R)| |].
    + intros i Hi. apply Vn. lia.
    + intros i Hi. rewrite <- Nat.add_assoc. apply Ls. lia.
    + intros s1 _ (C1 & L1 & P1 & R1). apply wp_bind.
      assert (X1 : forall i, i < n -> h_mem s1 (base + i) = nth_error xs i).
      { intros i Hi. rewrite R1 by lia. apply H. auto. }
      assert (Ls1 : alive_cells s1 src m).
      { intros i Hi. destruct (Nat.lt_ge_cases i r).
        - rewrite R1 by lia. apply Ls. auto.
        - replace (src + i) with (src + r + (i - r)) by lia. apply L1. lia. }
      assert (Hs1 : cp = true -> forall i, i < m -> h_mem s1 (src + i) = nth_error ys i).
      { intros Hc i Hi. rewrite <- Hs by auto. destruct (Nat.lt_ge_cases i r).
        - rewrite R1 by lia. reflexivity.
        - replace (src + i) with (src + r + (i - r)) by lia. apply P1; auto. lia. }
      eapply wp_mono; [apply (wp_s_build false MoveH r)| |].
      * right. reflexivity.
      * intros i Hi. rewrite R1 by lia. rewrite <- Nat.add_assoc. apply Vn. lia.
      * intros i Hi. rewrite <- Nat.add_assoc, X1 by lia. apply nth_error_Some. fold n. lia.
      * intros s2 _ (C2 & L2 & _ & R2).
        assert (S2 : forall i, i < m -> h_mem s2 (src + i) = h_mem s1 (src + i)).
        { intros i Hi. apply R2; lia. }
        eapply wp_mono; [apply (wp_s_assign_from cp f tmp r F R (base + k) src s2)| |].
        -- rewrite R2, R1 by lia. auto.
        -- intros i Hi. apply L2. auto.
        -- intros i Hi. rewrite S2 by lia. apply Ls1. lia.
        -- unfold apart. lia.
        -- intros s3 _ (C3 & L3 & T3 & P3 & R3). split; [|split; [auto|split; [|split]]].
           ++ intros i Hi. rewrite nth_insert_list by auto. rewrite insert_list_at_length in Hi by auto. fold n m in Hi |- *.
              destruct (i <? k) eqn:Ki.
              ** apply Nat.ltb_lt in Ki. rewrite R3, R2 by lia. apply X1. lia.
              ** apply Nat.ltb_ge in Ki. destruct (i <? k + m) eqn:Kj.
                 --- apply Nat.ltb_lt in Kj. destruct (Nat.lt_ge_cases (i - k) r).
                     +++ replace (base + i) with (base + k + (i - k)) by lia. rewrite C3, S2, R1 by lia. apply Hs. fold m. lia.
                     +++ rewrite R3, R2 by lia. replace (base + i) with (base + n + (i - n)) by lia. rewrite C1 by lia.
                         rewrite <- Hs by (fold m; lia). f_equal. lia.
                 --- apply Nat.ltb_ge in Kj. rewrite R3 by lia.
                     replace (base + i) with (base + n + (m - r) + (i - (k + m))) by lia. rewrite C2 by lia.
                     rewrite <- X1 by lia. f_equal. lia.
           ++ intros i Hi. destruct (Nat.lt_ge_cases i r).
              ** apply L3. auto.
              ** rewrite R3, S2 by lia. apply Ls1. auto.
           ++ intros Hc i Hi. destruct (Nat.lt_ge_cases i r).
              ** rewrite P3, S2 by auto. apply Hs1; auto.
              ** rewrite R3, S2 by lia. apply Hs1; auto.
           ++ intros c Q1 Q2. rewrite R3, R2, R1 by lia. reflexivity.
        -- intros s3 e (Th & Ld3 & L3 & T3 & P3 & R3). split; [|split; [auto|split; [|split; [|split]]]].
           ++ destruct Th; [auto|right; right; auto].
           ++ intros i Hi. destruct (Nat.lt_ge_cases i r).
              ** apply L3. auto.
              ** rewrite R3, S2 by lia. apply Ls1. auto.
           ++ intros Hc i Hi. destruct (Nat.lt_ge_cases i r).
              ** rewrite P3, S2 by auto. apply Hs1; auto.
              ** rewrite R3, S2 by lia. apply Hs1; auto.
           ++ intros c Q1 Q2. rewrite R3, R2, R1 by lia. reflexivity.
           ++ exists (n + m). split; [lia|split; [|intros i Hi; lia]]. intros i Hi.
              destruct (Nat.lt_ge_cases i k); [rewrite R3, R2, X1 by lia; apply nth_error_Some; fold n; lia|].
              destruct (Nat.lt_ge_cases i n).
              { replace (base + i) with (base + k + (i - k)) by lia. apply Ld3. lia. }
              rewrite R3 by lia. destruct (Nat.lt_ge_cases i (n + (m - r))).
              ** rewrite R2 by lia. replace (base + i) with (base + n + (i - n)) by lia. rewrite C1 by lia.
                 replace (src + r + (i - n)) with (src + (r + (i - n))) by lia. apply Ls. lia.
              ** replace (base + i) with (base + n + (m - r) + (i - (n + (m - r)))) by lia. rewrite C2 by lia.
                 rewrite <- Nat.add_assoc, X1 by lia. apply nth_error_Some. fold n. lia.
      * intros s2 e (Th & V2 & L2 & _ & R2). split; [|split; [|split; [|split; [|split]]]].
        -- right. left. destruct Th as ([->|(_ & ? & _)] & Th2); [auto|discriminate].
        -- rewrite R2, R1 by lia. auto.
        -- intros i Hi. rewrite R2 by lia. apply Ls1. auto.
        -- intros Hc i Hi. rewrite R2 by lia. apply Hs1; auto.
        -- intros c Q1 Q2. rewrite R2, R1 by lia. reflexivity.
        -- exists (n + (m - r)). split; [lia|split].
           ++ intros i Hi. destruct (Nat.lt_ge_cases i k); [rewrite R2, X1 by lia; apply nth_error_Some; fold n; lia|].
              destruct (Nat.lt_ge_cases i n).
              { replace (base + i) with (base + k + (i - k)) by lia. apply L2. lia. }
              rewrite R2 by lia. replace (base + i) with (base + n + (i - n)) by lia. rewrite C1 by lia.
              replace (src + r + (i - n)) with (src + (r + (i - n))) by lia. apply Ls. lia.
           ++ intros i Hi. replace (base + (n + (m - r)) + i) with (base + n + (m - r) + i) by lia. apply V2. lia.
    + intros s1 e (Th & V1 & L1 & P1 & R1). split; [auto|split; [|split; [|split; [|split]]]].
      * rewrite R1 by lia. auto.
      * intros i Hi. destruct (Nat.lt_ge_cases i r).
        -- rewrite R1 by lia. apply Ls. auto.
        -- replace (src + i) with (src + r + (i - r)) by lia. apply L1. lia.
      * intros Hc i Hi. fold m in Hi. rewrite <- Hs by auto. destruct (Nat.lt_ge_cases i r).
        -- rewrite R1 by lia. reflexivity.
        -- replace (src + i) with (src + r + (i - r)) by lia. apply P1; auto. lia.
      * intros c Q1 Q2. rewrite R1 by lia. reflexivity.
      * exists n. split; [lia|split].
        -- intros i Hi. rewrite R1 by lia. apply L. auto.
        -- intros i Hi. destruct (Nat.lt_ge_cases i (m - r)).
           ++ apply V1. auto.
           ++ rewrite R1 by lia. apply Vn. lia.
Qed.

End P.
