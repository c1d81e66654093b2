(** The array-based tree holds the recursive Merkle hashes. *)
From Coq Require Import ZArith List Bool Lia Permutation Arith.
From Verif Require Import ParallelizeModel ParallelizeProof MSMProof MerkleModel MerkleSpec.
Import ListNotations.
Open Scope nat_scope.

Lemma pow2_pos n : 0 < Nat.pow 2 n.
Proof. induction n; cbn; lia. Qed.
Lemma pow2_S n : Nat.pow 2 (S n) = 2 * Nat.pow 2 n.
Proof. reflexivity. Qed.
Lemma pow2_Z n : Z.of_nat (Nat.pow 2 n) = (2 ^ Z.of_nat n)%Z.
Proof. rewrite Nat2Z.inj_pow. reflexivity. Qed.

Lemma sub_bound m d e : m < Nat.pow 2 d -> (m + 1) * Nat.pow 2 e <= Nat.pow 2 (d + e).
Proof. intro Hm. rewrite Nat.pow_add_r. apply Nat.mul_le_mono_r. lia. Qed.

  Lemma get_nat {H} (t : list H) x h : nth_error t x = Some h -> get_hash t (Z.of_nat x) = Ok h.
  Proof. intro E. unfold get_hash. destruct (Z.ltb_spec (Z.of_nat x) 0); [lia|]. rewrite Nat2Z.id, E. reflexivity. Qed.
  Lemma set_nat {H} (t : list H) x h : x < length t -> set_hash t (Z.of_nat x) h = Ok (set_nth x h t).
  Proof.
    intro E. unfold set_hash. destruct (Z.leb_spec 0 (Z.of_nat x)); [|lia]. destruct (Z.ltb_spec (Z.of_nat x) (Z.of_nat (length t))); [|lia].
    cbn [andb]. rewrite Nat2Z.id. reflexivity.
  Qed.

Section Build.
  Context {Leaf H : Type}.
  Variables (leaf_hash : Leaf -> H) (parent : H -> H -> H) (default : H).
  Variables (k : nat) (leaf : nat -> H).
  Notation node := (node parent leaf).
  Hypothesis Hk : k <= 62.

  (** Position [j] of depth [d] holds the right hash. *)
  Definition correct (t : list H) (d j : nat) : Prop := nth_error t (Nat.pow 2 d - 1 + j) = Some (node (k - d) j).
  Lemma node_step d j : d < k -> node (k - d) j = parent (node (k - S d) (2 * j)) (node (k - S d) (2 * j + 1)).
  Proof. clear Hk. intro Hd. replace (k - d) with (S (k - S d)) by lia. reflexivity. Qed.

  Lemma build_level_spec : forall m fuel a d (t : list H) (to : Z), d < k -> m < fuel -> a + m <= Nat.pow 2 d -> Nat.pow 2 (S k) - 1 = length t ->
    let i := Nat.pow 2 (S d) - 1 + 2 * a in
    (to = Z.of_nat (i + 2 * m) \/ to = Z.of_nat (i + 2 * m) - 1)%Z ->
    (forall j, 2 * a <= j < 2 * (a + m) -> correct t (S d) j) ->
    exists t', build_level parent fuel (Z.of_nat i) to t = Ok t' /\ length t' = length t /\
      (forall j, a <= j < a + m -> correct t' d j) /\
      (forall x, ~ (Nat.pow 2 d - 1 + a <= x < Nat.pow 2 d - 1 + (a + m)) -> nth_error t' x = nth_error t x).
  Proof.
    induction m as [|m IH]; intros fuel a d t to Hd Hf Hm Hl i Hto Hc; (destruct fuel as [|fuel]; [lia|]); cbn [build_level].
    - exists t. destruct (Z.ltb_spec (Z.of_nat i) to); [lia|]. split; [reflexivity|]. split; [reflexivity|]. split; [intros; lia|]. auto.
    - pose proof (pow2_pos d) as P. pose proof (pow2_S d) as E.
      assert (Pk : Nat.pow 2 (S d) <= Nat.pow 2 k) by (apply Nat.pow_le_mono_r; lia). pose proof (pow2_S k) as Ek.
      destruct (Z.ltb_spec (Z.of_nat i) to) as [_|Hn]; [|lia].
      pose proof (Hc (2 * a) ltac:(lia)) as C0. pose proof (Hc (2 * a + 1) ltac:(lia)) as C1. unfold correct in C0, C1.
      rewrite (get_nat t i _ C0). cbn [bind].
      replace (Z.of_nat i + 1)%Z with (Z.of_nat (Nat.pow 2 (S d) - 1 + (2 * a + 1))) by (unfold i; lia).
      rewrite (get_nat t _ _ C1). cbn [bind]. rewrite <- node_step by exact Hd.
      assert (Ei : (Z.of_nat i / 2)%Z = Z.of_nat (Nat.pow 2 d - 1 + a)).
      { symmetry. apply (Z.div_unique _ 2 _ 1). lia. unfold i. lia. }
      rewrite Ei, set_nat by lia. cbn [bind].
      set (t1 := set_nth (Nat.pow 2 d - 1 + a) (node (k - d) a) t).
      assert (L1 : length t1 = length t) by apply set_nth_length.
      assert (G1 : forall x, nth_error t1 x = if x =? Nat.pow 2 d - 1 + a then Some (node (k - d) a) else nth_error t x).
      { intro x. unfold t1. rewrite nth_error_set_nth by lia. destruct (Nat.eqb_spec x (Nat.pow 2 d - 1 + a)), (Nat.eqb_spec (Nat.pow 2 d - 1 + a) x); try lia; reflexivity. }
      destruct (IH fuel (S a) d t1 to Hd ltac:(lia) ltac:(lia) ltac:(lia)) as (t' & B & L & C & F).
      + unfold i in Hto. lia.
      + intros j Hj. unfold correct. rewrite G1. destruct (Nat.eqb_spec (Nat.pow 2 (S d) - 1 + j) (Nat.pow 2 d - 1 + a)); [lia|]. apply Hc. lia.
      + exists t'. split.
        { replace (Z.of_nat i + 2)%Z with (Z.of_nat (Nat.pow 2 (S d) - 1 + 2 * S a)) by (unfold i; lia). exact B. }
        split; [lia|]. split.
        * intros j Hj. destruct (Nat.eq_dec j a) as [->|N]; [|apply C; lia]. unfold correct. rewrite F by lia. rewrite G1, Nat.eqb_refl. reflexivity.
        * intros x Hx. rewrite F by lia. rewrite G1. destruct (Nat.eqb_spec x (Nat.pow 2 d - 1 + a)); [lia|reflexivity].
  Qed.

  (** The subtree of height [e] below position [m] of depth [d]. *)
  Lemma build_tree_spec : forall e fuel d m (t : list H) (to : Z), d + e <= k -> e < fuel -> m < Nat.pow 2 d -> Nat.pow 2 (S k) - 1 = length t ->
    let from := Nat.pow 2 (d + e) - 1 + m * Nat.pow 2 e in
    (to = Z.of_nat (from + Nat.pow 2 e) - 1)%Z \/ (to = Z.of_nat (from + Nat.pow 2 e) /\ 0 < e) ->
    (forall j, m * Nat.pow 2 e <= j < (m + 1) * Nat.pow 2 e -> correct t (d + e) j) ->
    exists t', build_tree parent fuel (Z.of_nat from) to t = Ok t' /\ length t' = length t /\
      (forall e' j, e' <= e -> m * Nat.pow 2 e' <= j < (m + 1) * Nat.pow 2 e' -> correct t' (d + e') j) /\
      (forall x, (forall e', e' < e -> ~ (Nat.pow 2 (d + e') - 1 + m * Nat.pow 2 e' <= x < Nat.pow 2 (d + e') - 1 + (m + 1) * Nat.pow 2 e')) ->
         nth_error t' x = nth_error t x).
  Proof.
    induction e as [|e IH]; intros fuel d m t to Hd Hf Hm Hl from Hto Hc; (destruct fuel as [|fuel]; [lia|]); cbn [build_tree].
    - exists t. destruct (Z.ltb_spec (Z.of_nat from) to) as [Hn|_]; [change (Nat.pow 2 0) with 1 in Hto; lia|]. split; [reflexivity|]. split; [reflexivity|].
      split; [|auto]. intros e' j He Hj. replace e' with 0 in * by lia. apply Hc. exact Hj.
    - pose proof (pow2_pos e) as P. pose proof (pow2_S e) as E.
      assert (Ed : Nat.pow 2 (d + S e) = 2 * Nat.pow 2 (d + e)) by (rewrite Nat.add_succ_r; reflexivity).
      assert (Pde : Nat.pow 2 (d + e) = Nat.pow 2 d * Nat.pow 2 e) by apply Nat.pow_add_r.
      assert (Pk : Nat.pow 2 (d + S e) <= Nat.pow 2 k) by (apply Nat.pow_le_mono_r; lia). pose proof (pow2_S k) as Ek. pose proof (pow2_pos (d + e)) as Pp.
      assert (Mm : m * Nat.pow 2 e + Nat.pow 2 e <= Nat.pow 2 (d + e)) by (pose proof (sub_bound m d e Hm); lia).
      assert (Me : m * Nat.pow 2 (S e) = 2 * (m * Nat.pow 2 e)) by (rewrite E; ring).
      set (M := m * Nat.pow 2 e) in *.
      assert (Mp : (m + 1) * Nat.pow 2 e = M + Nat.pow 2 e) by (unfold M; ring).
      assert (Mq : (m + 1) * Nat.pow 2 (S e) = 2 * M + 2 * Nat.pow 2 e) by (rewrite E; unfold M; ring).
      destruct (Z.ltb_spec (Z.of_nat from) to) as [_|Hn]; [|unfold from in *; lia].
      destruct (build_level_spec (Nat.pow 2 e) (S (length t)) M (d + e) t to) as (t1 & B1 & L1 & C1 & F1); [lia|lia|lia|exact Hl| | |].
      { unfold from in Hto. rewrite Me in Hto. rewrite E in Hto. replace (d + S e) with (S (d + e)) in * by lia. lia. }
      { intros j Hj. replace (S (d + e)) with (d + S e) by lia. apply Hc. lia. }
      replace (S (d + e)) with (d + S e) in B1 by lia.
      replace (Nat.pow 2 (d + S e) - 1 + 2 * M) with from in B1 by (unfold from; lia). rewrite B1. cbn [bind].
      assert (Ef : (Z.of_nat from / 2)%Z = Z.of_nat (Nat.pow 2 (d + e) - 1 + M)).
      { symmetry. apply (Z.div_unique _ 2 _ 1). lia. unfold from. lia. }
      assert (Et : (to / 2 = Z.of_nat (Nat.pow 2 (d + e) - 1 + M + Nat.pow 2 e))%Z).
      { unfold from in Hto. rewrite Me, E, Ed in Hto. destruct Hto as [Hto|[Hto _]]; symmetry.
        - apply (Z.div_unique _ 2 _ 0). lia. lia.
        - apply (Z.div_unique _ 2 _ 1). lia. lia. }
      assert (B64 : (Z.of_nat (Nat.pow 2 k) <= 2 ^ 62)%Z).
      { rewrite pow2_Z. apply Z.pow_le_mono_r; lia. }
      assert (Ew : wrap64 (to / 2 - 1) = (Z.of_nat (Nat.pow 2 (d + e) - 1 + M + Nat.pow 2 e) - 1)%Z).
      { rewrite Et. unfold wrap64. apply Z.mod_small. change (2 ^ 64)%Z with (4 * 2 ^ 62)%Z. lia. }
      rewrite Ef, Ew.
      destruct (IH fuel d m t1 (Z.of_nat (Nat.pow 2 (d + e) - 1 + M + Nat.pow 2 e) - 1)%Z) as (t' & B & L & C & F); [lia|lia|exact Hm|lia| | |].
      { left. reflexivity. }
      { intros j Hj. apply C1. fold M in Hj. lia. }
      exists t'. split; [exact B|]. split; [lia|]. split.
      + intros e' j He Hj. destruct (Nat.eq_dec e' (S e)) as [->|N].
        * unfold correct. rewrite F; [rewrite F1; [apply Hc; exact Hj|]|].
          -- lia.
          -- intros e' He'. assert (Nat.pow 2 (d + S e') <= Nat.pow 2 (d + S e)) by (apply Nat.pow_le_mono_r; lia).
             assert (Ed' : Nat.pow 2 (d + S e') = 2 * Nat.pow 2 (d + e')) by (rewrite Nat.add_succ_r; reflexivity).
             assert (Nat.pow 2 (d + e') = Nat.pow 2 d * Nat.pow 2 e') by apply Nat.pow_add_r. pose proof (pow2_pos e'). pose proof (pow2_pos (d + e')).
             pose proof (sub_bound m d e' Hm) as Sb. revert Sb Hj H0 Ed'. clear - Pp Ed Me Mq P. intros. lia.
        * apply C; [lia|exact Hj].
      + intros x Hx. rewrite F.
        * apply F1. specialize (Hx e ltac:(lia)). rewrite Mp in Hx. fold M in Hx. lia.
        * intros e' He'. apply Hx. lia.
  Qed.

  (** Right hashes stay right. *)
  Lemma build_tree_keeps e fuel d m (t : list H) (to : Z) t' : d + e <= k -> e < fuel -> m < Nat.pow 2 d -> Nat.pow 2 (S k) - 1 = length t ->
    let from := Nat.pow 2 (d + e) - 1 + m * Nat.pow 2 e in
    (to = Z.of_nat (from + Nat.pow 2 e) - 1)%Z \/ (to = Z.of_nat (from + Nat.pow 2 e) /\ 0 < e) ->
    (forall j, m * Nat.pow 2 e <= j < (m + 1) * Nat.pow 2 e -> correct t (d + e) j) ->
    build_tree parent fuel (Z.of_nat from) to t = Ok t' ->
    forall d' j, j < Nat.pow 2 d' -> correct t d' j -> correct t' d' j.
  Proof.
    intros Hd Hf Hm Hl from Hto Hc B d' j Hj Cj.
    destruct (build_tree_spec e fuel d m t to Hd Hf Hm Hl Hto Hc) as (t1 & B1 & _ & C & F). fold from in B1. rewrite B1 in B. injection B as <-.
    assert (D : (exists e', e' < e /\ d' = d + e' /\ m * Nat.pow 2 e' <= j < (m + 1) * Nat.pow 2 e') \/ ~ (d <= d' /\ d' < d + e /\ m * Nat.pow 2 (d' - d) <= j < (m + 1) * Nat.pow 2 (d' - d))).
    { destruct (le_lt_dec d d') as [H1|H1]; [|right; lia]. destruct (le_lt_dec (d + e) d') as [H2|H2]; [right; lia|].
      destruct (le_lt_dec (m * Nat.pow 2 (d' - d)) j) as [H3|H3]; [|right; lia]. destruct (le_lt_dec ((m + 1) * Nat.pow 2 (d' - d)) j) as [H4|H4]; [right; lia|].
      left. exists (d' - d). repeat split; lia. }
    destruct D as [(e' & He & -> & Hr)|D].
    - apply C; [lia|exact Hr].
    - unfold correct. rewrite F; [exact Cj|]. intros e' He Hx. apply D.
      pose proof (sub_bound m d e' Hm) as Sb. pose proof (pow2_pos d') as Pd. pose proof (pow2_pos (d + e')) as Pe.
      assert (d' = d + e').
      { destruct (lt_eq_lt_dec d' (d + e')) as [[Hlt|He']|Hgt]; auto; exfalso.
        - assert (Nat.pow 2 (S d') <= Nat.pow 2 (d + e')) by (apply Nat.pow_le_mono_r; lia). pose proof (pow2_S d') as E2. revert H0 E2 Hj Hx Pd Pe. clear. intros. lia.
        - assert (Nat.pow 2 (S (d + e')) <= Nat.pow 2 d') by (apply Nat.pow_le_mono_r; lia). pose proof (pow2_S (d + e')) as E2. revert H0 E2 Hj Hx Pd Pe Sb. clear. intros. lia. }
      subst d'. replace (d + e' - d) with e' by lia. revert He Hx. clear. lia.
  Qed.

  Lemma build_subtrees_spec l : l <= k -> 0 < l -> forall order (t : list H), Forall (fun m => m < Nat.pow 2 (k - l)) order ->
    Nat.pow 2 (S k) - 1 = length t -> (forall j, j < Nat.pow 2 k -> correct t k j) ->
    exists t', build_subtrees parent order (Z.of_nat (Nat.pow 2 k)) (Z.of_nat (Nat.pow 2 l)) t = Ok t' /\ length t' = length t /\
      (forall d j, j < Nat.pow 2 d -> correct t d j -> correct t' d j) /\
      (forall m e' j, In m order -> e' <= l -> m * Nat.pow 2 e' <= j < (m + 1) * Nat.pow 2 e' -> correct t' (k - l + e') j).
  Proof.
    intros Hl Hl0. induction order as [|m order IH]; intros t Ho Hlen Hc; cbn [build_subtrees].
    - exists t. split; [reflexivity|]. split; [reflexivity|]. split; [auto|]. intros m e' j [].
    - inversion Ho as [|? ? Hm Ho']; subst.
      assert (Ek : k - l + l = k) by lia.
      pose proof (pow2_pos k) as Pk.
      pose proof (sub_bound m (k - l) l Hm) as Sb. rewrite Ek in Sb.
      assert (Ef : (Z.of_nat (Nat.pow 2 k) - 1 + Z.of_nat m * Z.of_nat (Nat.pow 2 l))%Z = Z.of_nat (Nat.pow 2 (k - l + l) - 1 + m * Nat.pow 2 l)).
      { rewrite Ek. rewrite <- Nat2Z.inj_mul. lia. }
      rewrite Ef. unfold build_tree_from_leaves. set (from := Nat.pow 2 (k - l + l) - 1 + m * Nat.pow 2 l).
      assert (Hto : (Z.of_nat from + Z.of_nat (Nat.pow 2 l))%Z = (Z.of_nat (from + Nat.pow 2 l) - 1)%Z \/
                    (Z.of_nat from + Z.of_nat (Nat.pow 2 l))%Z = Z.of_nat (from + Nat.pow 2 l) /\ 0 < l) by (right; lia).
      assert (Hcm : forall j, m * Nat.pow 2 l <= j < (m + 1) * Nat.pow 2 l -> correct t (k - l + l) j) by (intros j Hj; rewrite Ek; apply Hc; lia).
      destruct (build_tree_spec l 66 (k - l) m t _ ltac:(lia) ltac:(lia) Hm Hlen Hto Hcm) as (t1 & B1 & L1 & C1 & F1). fold from in B1. rewrite B1. cbn [bind].
      pose proof (build_tree_keeps l 66 (k - l) m t _ t1 ltac:(lia) ltac:(lia) Hm Hlen Hto Hcm B1) as K1.
      destruct (IH t1 Ho' ltac:(lia)) as (t' & B & L & K & C).
      { intros j Hj. apply K1; auto. }
      exists t'. split; [exact B|]. split; [lia|]. split; [auto|].
      intros m' e' j Hin He Hj. destruct Hin as [<-|Hin]; [|apply (C m'); auto]. apply K; [|apply C1; auto].
      pose proof (sub_bound m (k - l) e' Hm). lia.
  Qed.

  Lemma fill_loop_spec (leaves : list Leaf) : length leaves = Nat.pow 2 k -> (forall j x, nth_error leaves j = Some x -> leaf j = leaf_hash x) ->
    forall order (t : list H), Forall (fun i => i < length leaves) order -> Nat.pow 2 (S k) - 1 = length t ->
    exists t', fill_loop leaf_hash order leaves t = Ok t' /\ length t' = length t /\
      (forall j, j < length leaves -> correct t k j -> correct t' k j) /\ (forall j, In j order -> correct t' k j).
  Proof.
    intros Hn Hleaf. induction order as [|i order IH]; intros t Ho Hlen; cbn [fill_loop].
    - exists t. split; [reflexivity|]. split; [reflexivity|]. split; [auto|]. intros j [].
    - inversion Ho as [|? ? Hi Ho']; subst. destruct (nth_error leaves i) as [x|] eqn:Ex; [|apply nth_error_None in Ex; lia].
      pose proof (pow2_pos k) as Pk. pose proof (pow2_S k) as Sk.
      replace (Z.of_nat (length leaves) + Z.of_nat i - 1)%Z with (Z.of_nat (Nat.pow 2 k - 1 + i)) by lia.
      rewrite set_nat by lia. cbn [bind].
      set (t1 := set_nth (Nat.pow 2 k - 1 + i) (leaf_hash x) t). assert (L1 : length t1 = length t) by apply set_nth_length.
      assert (C1 : forall j, correct t k j \/ j = i -> correct t1 k j).
      { intros j Hj. unfold correct, t1. rewrite nth_error_set_nth by lia. destruct (Nat.eqb_spec (Nat.pow 2 k - 1 + j) (Nat.pow 2 k - 1 + i)) as [E|E].
        - assert (j = i) as -> by lia. rewrite Nat.sub_diag. cbn [MerkleSpec.node]. rewrite (Hleaf i x Ex). reflexivity.
        - destruct Hj as [Hj| ->]; [exact Hj|lia]. }
      destruct (IH t1 Ho' ltac:(lia)) as (t' & B & L & K & C).
      exists t'. split; [exact B|]. split; [lia|]. split; [auto|].
      intros j [<-|Hj]; [|auto]. apply K; [exact Hi|]. apply C1. auto.
  Qed.
End Build.

Lemma is_power_of_two_spec n : is_power_of_two (Z.of_nat n) = true <-> exists k, n = Nat.pow 2 k.
Proof.
  unfold is_power_of_two. split.
  - intro H. apply andb_true_iff in H. destruct H as [H1 H2]. apply Z.ltb_lt in H1. apply Z.eqb_eq in H2.
    exists (Z.to_nat (Z.log2 (Z.of_nat n))). apply Nat2Z.inj. rewrite pow2_Z, Z2Nat.id by apply Z.log2_nonneg.
    set (z := Z.of_nat n) in *. destruct (Z.log2_spec z H1) as [A B]. destruct (Z.eq_dec z (2 ^ Z.log2 z)) as [E|N]; [exact E|exfalso].
    assert (T : Z.testbit (Z.land z (z - 1)) (Z.log2 z) = true).
    { rewrite Z.land_spec. rewrite Z.bit_log2 by lia. cbn [andb].
      assert (E : Z.log2 (z - 1) = Z.log2 z) by (apply Z.log2_unique; [apply Z.log2_nonneg|lia]). rewrite <- E. apply Z.bit_log2. pose proof (Z.log2_nonneg z). assert (0 < 2 ^ Z.log2 z)%Z by (apply Z.pow_pos_nonneg; lia). lia. }
    rewrite H2, Z.bits_0 in T. discriminate.
  - intros [k ->]. pose proof (pow2_pos k). apply andb_true_iff. split; [apply Z.ltb_lt; lia|]. apply Z.eqb_eq. rewrite pow2_Z.
    rewrite <- Z.ones_equiv || idtac. replace (2 ^ Z.of_nat k - 1)%Z with (Z.ones (Z.of_nat k)) by (rewrite Z.ones_equiv; lia).
    rewrite Z.land_ones by lia. apply Z.mod_same. apply Z.pow_nonzero; lia.
Qed.

Lemma nth_firstn_lt {A} (d : A) : forall n j (l : list A), j < n -> nth j (firstn n l) d = nth j l d.
Proof. induction n as [|n IH]; intros j l Hj; [lia|]. destruct l, j; cbn; auto. apply IH. lia. Qed.
Lemma nth_skipn_add {A} (d : A) : forall n j (l : list A), nth j (skipn n l) d = nth (n + j) l d.
Proof. induction n as [|n IH]; intros j l; [reflexivity|]. destruct l; cbn; auto. destruct j; reflexivity. Qed.

Section Commit.
  Context {Leaf H : Type}.
  Variables (leaf_hash : Leaf -> H) (parent : H -> H -> H) (default : H).

  Lemma allocate_length (t : list H) n : length (allocate default t (Z.of_nat n)) = n.
  Proof. unfold allocate. rewrite Nat2Z.id, app_length, firstn_length, repeat_length. lia. Qed.

  Lemma log2_pow2 n : Z.log2 (Z.of_nat (Nat.pow 2 n)) = Z.of_nat n.
  Proof. rewrite pow2_Z. apply Z.log2_pow2. lia. Qed.

  Theorem commit_spec k l max_size fill_order tree_order (leaves : list Leaf) (t : list H) : 1 <= k <= 62 -> 1 <= l -> length leaves = Nat.pow 2 k ->
    (Z.of_nat (length leaves) <= max_size)%Z ->
    Permutation fill_order (seq 0 (length leaves)) -> Permutation tree_order (seq 0 (Nat.pow 2 (k - l))) ->
    let leaf := (fun j => nth j (map leaf_hash leaves) default) in
    exists t', commit leaf_hash parent default max_size (Z.of_nat (Nat.pow 2 l)) fill_order tree_order leaves t = Ok (Some (t', node parent leaf k 0)) /\
      length t' = Nat.pow 2 (S k) - 1 /\ forall d j, d <= k -> j < Nat.pow 2 d -> correct parent k leaf t' d j.
  Proof.
    intros Hk Hl Hn Hmax HF HT leaf. unfold commit, fill_leaves.
    rewrite (proj2 (is_power_of_two_spec (length leaves))) by (exists k; exact Hn). cbn [negb].
    destruct (Z.ltb_spec max_size (Z.of_nat (length leaves))); [lia|].
    pose proof (pow2_pos k) as Pk. pose proof (pow2_S k) as Sk.
    replace (2 * Z.of_nat (length leaves) - 1)%Z with (Z.of_nat (Nat.pow 2 (S k) - 1)) by lia.
    pose proof (allocate_length t (Nat.pow 2 (S k) - 1)) as LA. set (t0 := allocate default t (Z.of_nat (Nat.pow 2 (S k) - 1))) in *. clearbody t0.
    assert (Hleaf : forall j x, nth_error leaves j = Some x -> leaf j = leaf_hash x).
    { intros j x E. unfold leaf. apply nth_error_nth. rewrite nth_error_map, E. reflexivity. }
    destruct (fill_loop_spec leaf_hash parent k leaf ltac:(lia) leaves Hn Hleaf fill_order t0) as (t1 & B1 & L1 & _ & C1).
    { apply Forall_forall. intros i Hi. apply (Permutation_in _ HF) in Hi. apply in_seq in Hi. lia. }
    { lia. }
    rewrite B1. cbn [bind]. rewrite Hn.
    assert (Cl : forall j, j < Nat.pow 2 k -> correct parent k leaf t1 k j).
    { intros j Hj. apply C1. apply (Permutation_in _ (Permutation_sym HF)), in_seq. lia. }
    assert (FIN : forall t2, length t2 = Nat.pow 2 (S k) - 1 -> (forall d j, d <= k -> j < Nat.pow 2 d -> correct parent k leaf t2 d j) ->
      exists t', bind (get_hash t2 0) (fun root => Ok (Some (t2, root))) = Ok (Some (t', node parent leaf k 0)) /\
      length t' = Nat.pow 2 (S k) - 1 /\ forall d j, d <= k -> j < Nat.pow 2 d -> correct parent k leaf t' d j).
    { intros t2 L2 C2. exists t2. split; [|auto]. pose proof (C2 0 0 ltac:(lia) ltac:(cbn; lia)) as C0. unfold correct in C0. rewrite Nat.sub_0_r in C0.
      change (Nat.pow 2 0 - 1 + 0) with 0 in C0. change 0%Z with (Z.of_nat 0). rewrite (get_nat t2 0 _ C0). reflexivity. }
    destruct (Z.ltb_spec (Z.of_nat (Nat.pow 2 l)) (Z.of_nat (Nat.pow 2 k))) as [Hlt|Hge].
    - assert (Hlk : l < k).
      { destruct (le_lt_dec k l) as [Hkl|]; [|lia]. pose proof (Nat.pow_le_mono_r 2 k l ltac:(lia) Hkl). lia. }
      destruct (build_subtrees_spec parent k leaf ltac:(lia) l ltac:(lia) ltac:(lia) tree_order t1) as (t2 & B2 & L2 & _ & C2).
      { apply Forall_forall. intros i Hi. apply (Permutation_in _ HT) in Hi. apply in_seq in Hi. lia. }
      { lia. } { exact Cl. }
      rewrite B2. cbn [bind]. rewrite !log2_pow2. replace (Z.of_nat k - Z.of_nat l)%Z with (Z.of_nat (k - l)) by lia.
      replace (Z.of_nat (k - l) + 1)%Z with (Z.of_nat (S (k - l))) by lia. rewrite <- !pow2_Z.
      pose proof (pow2_pos (k - l)) as Pkl. pose proof (pow2_S (k - l)) as Skl.
      replace (Z.of_nat (Nat.pow 2 (k - l)) - 1)%Z with (Z.of_nat (Nat.pow 2 (0 + (k - l)) - 1 + 0 * Nat.pow 2 (k - l))) by (cbn [Nat.add Nat.mul]; lia).
      destruct (build_tree_spec parent k leaf ltac:(lia) (k - l) 66 0 0 t2 (Z.of_nat (Nat.pow 2 (S (k - l))) - 1)%Z) as (t3 & B3 & L3 & C3 & F3).
      { lia. } { lia. } { cbn; lia. } { lia. }
      { right. split; [|lia]. cbn [Nat.add Nat.mul]. lia. }
      { intros j Hj. cbn [Nat.add]. replace (k - l) with (k - l + 0) at 1 by lia. apply (C2 j 0 j); [|lia|cbn; lia].
        apply (Permutation_in _ (Permutation_sym HT)), in_seq. lia. }
      pose proof (build_tree_keeps parent k leaf ltac:(lia) (k - l) 66 0 0 t2 (Z.of_nat (Nat.pow 2 (S (k - l))) - 1)%Z t3) as K3.
      unfold build_tree_from_leaves. rewrite B3. cbn [bind]. apply FIN; [lia|].
      intros d j Hd Hj. destruct (le_lt_dec d (k - l)) as [H1|H1].
      + replace d with (0 + d) by lia. apply C3; [exact H1|lia].
      + refine (K3 _ _ _ _ _ _ B3 d j Hj _); [lia|lia|cbn; lia|lia| | |].
        * right. split; [|lia]. cbn [Nat.add Nat.mul]. lia.
        * intros j' Hj'. cbn [Nat.add]. replace (k - l) with (k - l + 0) at 1 by lia. apply (C2 j' 0 j'); [|lia|cbn; lia].
          apply (Permutation_in _ (Permutation_sym HT)), in_seq. lia.
        * replace d with (k - l + (d - (k - l))) by lia. set (e := d - (k - l)). apply (C2 (Nat.div j (Nat.pow 2 e)) e j).
          -- apply (Permutation_in _ (Permutation_sym HT)), in_seq. split; [apply Nat.le_0_l|]. apply Nat.div_lt_upper_bound; [pose proof (pow2_pos e); lia|].
             rewrite Nat.add_0_l, <- Nat.pow_add_r. unfold e. replace (d - (k - l) + (k - l)) with d by lia. exact Hj.
          -- unfold e. lia.
          -- pose proof (pow2_pos e). pose proof (Nat.div_mod j (Nat.pow 2 e) ltac:(lia)). pose proof (Nat.mod_upper_bound j (Nat.pow 2 e) ltac:(lia)).
             rewrite Nat.mul_add_distr_r, Nat.mul_1_l, (Nat.mul_comm (Nat.div j _)). lia.
    - replace (Z.of_nat (Nat.pow 2 k) - 1)%Z with (Z.of_nat (Nat.pow 2 (0 + k) - 1 + 0 * Nat.pow 2 k)) by (cbn [Nat.add Nat.mul]; lia).
      destruct (build_tree_spec parent k leaf ltac:(lia) k 66 0 0 t1 (Z.of_nat (Nat.pow 2 (S k) - 1))) as (t3 & B3 & L3 & C3 & F3).
      { lia. } { lia. } { cbn; lia. } { lia. }
      { right. split; [|lia]. cbn [Nat.add Nat.mul]. lia. }
      { intros j Hj. cbn [Nat.add]. apply Cl. lia. }
      unfold build_tree_from_leaves. rewrite B3. cbn [bind]. apply FIN; [lia|].
      intros d j Hd Hj. replace d with (0 + d) by lia. apply C3; [exact Hd|lia].
  Qed.

  (** ** Openings *)
  Lemma opening_spec k leaf (t : list H) : (forall d j, d <= k -> j < Nat.pow 2 d -> correct parent k leaf t d j) ->
    forall d fuel j, d <= k -> d < fuel -> j < Nat.pow 2 d ->
    exists paths, opening_loop fuel d (Z.of_nat (Nat.pow 2 d - 1 + j)) t = Ok paths /\ length paths = d /\
      fold_left (path_step parent) paths (node parent leaf (k - d) j) = node parent leaf k 0.
  Proof.
    intro HC. induction d as [|d IH]; intros fuel j Hd Hf Hj.
    - exists []. change (Nat.pow 2 0) with 1 in Hj. replace j with 0 by lia. split; [|split; [reflexivity|]].
      + destruct fuel; reflexivity.
      + cbn [fold_left]. rewrite Nat.sub_0_r. reflexivity.
    - destruct fuel as [|fuel]; [lia|]. pose proof (pow2_pos d) as Pd. pose proof (pow2_S d) as Sd. cbn [opening_loop].
      destruct (Z.leb_spec (Z.of_nat (Nat.pow 2 (S d) - 1 + j)) 0); [lia|].
      destruct (Nat.Even_or_Odd j) as [[q Eq]|[q Eq]].
      + (* left child *)
        assert (M : (Z.of_nat (Nat.pow 2 (S d) - 1 + j) mod 2)%Z = 1%Z) by (symmetry; apply (Z.mod_unique _ 2 (Z.of_nat (Nat.pow 2 d - 1 + q))); lia).
        rewrite M. change (1 =? 0)%Z with false. cbv iota.
        pose proof (HC (S d) (j + 1) Hd ltac:(lia)) as Cs. unfold correct in Cs.
        replace (Z.of_nat (Nat.pow 2 (S d) - 1 + j) + 1)%Z with (Z.of_nat (Nat.pow 2 (S d) - 1 + (j + 1))) by lia. rewrite (get_nat t _ _ Cs). cbn [bind].
        assert (Ei : ((Z.of_nat (Nat.pow 2 (S d) - 1 + j) - 1) / 2)%Z = Z.of_nat (Nat.pow 2 d - 1 + q)).
        { symmetry. apply (Z.div_unique _ 2 _ 0). lia. lia. }
        rewrite Ei. destruct (IH fuel q ltac:(lia) ltac:(lia) ltac:(lia)) as (paths & E & L & F). rewrite E. cbn [bind]. eexists. split; [reflexivity|].
        split; [cbn [length]; lia|]. cbn [fold_left]. unfold path_step at 2. cbn [path_left path_hash].
        rewrite (node_step parent k leaf d q ltac:(lia)) in F. rewrite Eq. exact F.
      + assert (M : (Z.of_nat (Nat.pow 2 (S d) - 1 + j) mod 2)%Z = 0%Z) by (symmetry; apply (Z.mod_unique _ 2 (Z.of_nat (Nat.pow 2 d + q))); lia).
        rewrite M. change (0 =? 0)%Z with true. cbv iota.
        pose proof (HC (S d) (j - 1) Hd ltac:(lia)) as Cs. unfold correct in Cs.
        replace (Z.of_nat (Nat.pow 2 (S d) - 1 + j) - 1)%Z with (Z.of_nat (Nat.pow 2 (S d) - 1 + (j - 1))) by lia. rewrite (get_nat t _ _ Cs). cbn [bind].
        assert (Ei : (Z.of_nat (Nat.pow 2 (S d) - 1 + (j - 1)) / 2)%Z = Z.of_nat (Nat.pow 2 d - 1 + q)).
        { symmetry. apply (Z.div_unique _ 2 _ 1). lia. lia. }
        rewrite Ei. destruct (IH fuel q ltac:(lia) ltac:(lia) ltac:(lia)) as (paths & E & L & F). rewrite E. cbn [bind]. eexists. split; [reflexivity|].
        split; [cbn [length]; lia|]. cbn [fold_left]. unfold path_step at 2. cbn [path_left path_hash].
        rewrite (node_step parent k leaf d q ltac:(lia)) in F. replace (j - 1) with (2 * q) by lia. rewrite Eq. exact F.
  Qed.

  Lemma node_root : forall k (hashes : list H) (off : nat) leaf, length hashes = Nat.pow 2 k -> (forall j, j < Nat.pow 2 k -> leaf (off * Nat.pow 2 k + j) = nth j hashes default) ->
    node parent leaf k off = merkle_root parent default k hashes.
  Proof.
    induction k as [|k IH]; intros hashes off leaf HL HE; cbn [node merkle_root].
    - rewrite <- (HE 0) by (cbn; lia). f_equal. cbn. lia.
    - pose proof (pow2_S k) as Sk. pose proof (pow2_pos k) as Pk. f_equal.
      + apply IH; [rewrite firstn_length; lia|]. intros j Hj. rewrite nth_firstn_lt by lia. rewrite <- HE by lia. f_equal. rewrite Sk. ring.
      + apply IH; [rewrite skipn_length; lia|]. intros j Hj. rewrite nth_skipn_add. rewrite <- HE by lia. f_equal. rewrite Sk. ring.
  Qed.
End Commit.
