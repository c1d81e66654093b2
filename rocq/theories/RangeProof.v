From Coq Require Import ZArith List Bool Lia ZifyBool.
From Verif Require Import RangeModel RangeSpec.
Import ListNotations.
Open Scope Z_scope.

Fixpoint zseq (a : Z) (n : nat) : list Z := match n with O => [] | S k => a :: zseq (a + 1) k end.
Lemma zseq_in n : forall a v, In v (zseq a n) <-> a <= v < a + Z.of_nat n.
Proof. induction n as [|n IH]; intros a v; cbn [zseq In]; [lia|]. rewrite IH. lia. Qed.
Lemma zseq_nodup n : forall a, NoDup (zseq a n).
Proof. induction n as [|n IH]; intros a; cbn [zseq]; constructor; auto. rewrite zseq_in. lia. Qed.
Lemma zseq_length n : forall a, length (zseq a n) = n.
Proof. induction n; intros; cbn; auto. Qed.
Lemma zseq_nth n : forall a i, (i < n)%nat -> nth i (zseq a n) 0 = a + Z.of_nat i.
Proof. induction n; intros a [|i] H; cbn [zseq nth]; try lia. rewrite IHn; lia. Qed.

(** [count] really counts. *)
Lemma count_spec si ei a b : exists l, NoDup l /\ (forall v, In v l <-> between si ei a b v) /\ Z.of_nat (length l) = count si ei a b.
Proof.
  exists (zseq (if si then a else a + 1) (Z.to_nat (count si ei a b))). split; [apply zseq_nodup|]. split.
  - intros v. rewrite zseq_in. unfold between, count. destruct si, ei; lia.
  - rewrite zseq_length. unfold count. lia.
Qed.
Lemma contains_spec si ei r v : contains si ei r v = true <-> between si ei (rfrom r) (rto r) v.
Proof. unfold contains, between. destruct si, ei; cbn [andb negb]; lia. Qed.
Lemma intersect_spec si ei a b v : contains si ei (intersect a b) v = contains si ei a v && contains si ei b v.
Proof. unfold contains, intersect. destruct a as [a1 a2], b as [b1 b2]. cbn [rfrom rto]. destruct si, ei; cbn [andb negb]; lia. Qed.
Lemma is_empty_spec si ei t r : si || ei = true -> of_type t (rfrom r) -> of_type t (rto r) ->
  is_empty si ei r = true <-> forall v, of_type t v -> contains si ei r v = false.
Proof.
  intros HE Hf Ht. unfold is_empty. split.
  - intros H v Hv. unfold contains. destruct si, ei; cbn [andb negb] in *; try discriminate; lia.
  - intros H. pose proof (H _ Hf) as H1. pose proof (H _ Ht) as H2. unfold contains in *. destruct si, ei; cbn [andb negb orb] in *; try discriminate; lia.
Qed.
Lemma is_empty_exclusive_spec r : is_empty false false r = true -> forall v, contains false false r v = false.
Proof. unfold is_empty, contains. cbn. lia. Qed.
Lemma is_empty_open_wrong : exists r, is_empty false false r = false /\ forall v, contains false false r v = false.
Proof. exists (Range 3 4). split; [reflexivity|]. intros v. unfold contains. cbn. lia. Qed.

Definition sizes_fit (t : itype) (si ei : bool) (r : range) : Prop :=
  of_type (promoted t) (rto r - rfrom r) /\ of_type (promoted t) (count si ei (rfrom r) (rto r)).
Lemma type_bounds t : integer_type t -> highest (promoted t) < 2 ^ 64 /\ (signed (promoted t) = false -> highest (promoted t) = 2 ^ bits (promoted t) - 1 /\ lowest (promoted t) = 0).
Proof.
  intros [H|[H|[H|H]]]; unfold promoted; rewrite H; cbn [Z.ltb]; unfold highest, lowest; cbn; try rewrite H; destruct (signed t); cbn; split; intros; try discriminate; lia.
Qed.
Lemma arith_ok t v : integer_type t -> of_type (promoted t) v -> arith (promoted t) v = Some v.
Proof.
  intros HT [H1 H2]. destruct (type_bounds t HT) as [_ HB]. unfold arith. destruct (signed (promoted t)).
  - replace ((lowest (promoted t) <=? v) && (v <=? highest (promoted t))) with true by lia. reflexivity.
  - destruct (HB eq_refl) as [E1 E2]. f_equal. apply Z.mod_small. lia.
Qed.
Lemma get_size_spec t si ei r : integer_type t -> (is_empty si ei r = false -> sizes_fit t si ei r) ->
  get_size t si ei r = Some (count si ei (rfrom r) (rto r)).
Proof.
  intros HT HF. unfold get_size. destruct (is_empty si ei r) eqn:E.
  - f_equal. unfold is_empty, count in *. destruct si, ei; cbn [andb] in E; lia.
  - destruct (HF eq_refl) as [F1 F2]. rewrite arith_ok by assumption. destruct (type_bounds t HT) as [HB _].
    assert (HC : 0 <= count si ei (rfrom r) (rto r) < 2 ^ 64) by (destruct F2; unfold count in *; lia).
    unfold is_empty in E. destruct si, ei; cbn [andb xorb] in *.
    + assert (X : rto r - rfrom r + 1 = count true true (rfrom r) (rto r)) by (unfold count; lia). rewrite X, arith_ok by assumption.
      cbn. f_equal. apply Z.mod_small. exact HC.
    + f_equal. assert (X : rto r - rfrom r = count true false (rfrom r) (rto r)) by (unfold count; lia). rewrite X. apply Z.mod_small. exact HC.
    + f_equal. assert (X : rto r - rfrom r = count false true (rfrom r) (rto r)) by (unfold count; lia). rewrite X. apply Z.mod_small. exact HC.
    + assert (X : rto r - rfrom r - 1 = count false false (rfrom r) (rto r)) by (unfold count; lia). rewrite X, arith_ok by assumption.
      cbn. f_equal. apply Z.mod_small. exact HC.
Qed.
(** Sizes always fit for half-open ranges of unsigned types. *)
Lemma get_size_half_open t r : integer_type t -> signed t = false -> of_type t (rfrom r) -> of_type t (rto r) ->
  get_size t true false r = Some (count true false (rfrom r) (rto r)).
Proof.
  intros HT HS Hf Ht. apply get_size_spec; [exact HT|]. intros E. unfold is_empty in E. cbn in E.
  assert (lowest t = 0) by (unfold lowest; rewrite HS; reflexivity).
  assert (highest t <= highest (promoted t) /\ lowest (promoted t) <= 0).
  { destruct HT as [H0|[H0|[H0|H0]]]; unfold promoted; rewrite H0; cbn [Z.ltb]; unfold highest, lowest; cbn; rewrite ?HS, ?H0; cbn; lia. }
  unfold sizes_fit, of_type, count in *. lia.
Qed.
Lemma get_size_wraps : exists t r s, integer_type t /\ of_type t (rfrom r) /\ of_type t (rto r) /\ get_size t true true r = Some s /\
  s <> count true true (rfrom r) (rto r).
Proof. exists (IT 32 false), (all (IT 32 false)), 0. split; [unfold integer_type; cbn; auto|]. cbn. unfold of_type, lowest, highest. cbn. repeat split; try lia. Qed.
Lemma get_size_undefined : exists t r, integer_type t /\ of_type t (rfrom r) /\ of_type t (rto r) /\ get_size t true false r = None.
Proof. exists (IT 32 true), (all (IT 32 true)). split; [unfold integer_type; cbn; auto|]. unfold of_type, lowest, highest. cbn. repeat split; lia. Qed.

(** Loops. *)
Lemma convert_id t v : integer_type t -> of_type t v -> convert t v = v.
Proof.
  intros HT [H1 H2]. unfold convert. rewrite Z.mod_small; [lia|].
  destruct HT as [H|[H|[H|H]]]; unfold lowest, highest in *; rewrite H in *; destruct (signed t); cbn in *; lia.
Qed.
Lemma of_promoted t v : integer_type t -> of_type t v -> of_type (promoted t) v.
Proof.
  intros HT [H1 H2]. destruct HT as [H|[H|[H|H]]]; unfold of_type, promoted, lowest, highest in *; rewrite H in *; cbn [Z.ltb Z.compare Pos.compare Pos.compare_cont] in *; cbn in *; destruct (signed t); cbn in *; rewrite ?H in *; cbn in *; lia.
Qed.
Lemma next_ok t v : integer_type t -> of_type t (v + 1) -> next t v = Some (v + 1).
Proof.
  intros HT HV. unfold next. destruct (bits t <? 32) eqn:E; [f_equal; apply convert_id; assumption|].
  pose proof (arith_ok t (v + 1) HT) as X. unfold promoted in X. rewrite E in X. apply X. exact HV.
Qed.
Lemma loop_spec t : integer_type t -> forall n fuel cur stop, stop = cur + Z.of_nat n -> of_type t cur -> of_type t stop -> (n <= fuel)%nat ->
  loop t fuel cur stop = Some (zseq cur n).
Proof.
  intros HT. induction n as [|n IH]; intros fuel cur stop HS Hc Hs Hf.
  - destruct fuel; cbn [loop]; replace (cur =? stop) with true by lia; reflexivity.
  - destruct fuel as [|f]; [lia|]. cbn [loop]. replace (cur =? stop) with false by lia.
    assert (of_type t (cur + 1)) by (unfold of_type in *; lia). rewrite next_ok by assumption. rewrite (IH f (cur + 1) stop) by (auto; lia). reflexivity.
Qed.
Lemma begin_ok t si r : integer_type t -> of_type t (rfrom r) -> of_type t (rfrom r + 1) -> rbegin t si r = Some (if si then rfrom r else rfrom r + 1).
Proof.
  intros HT H0 H1. unfold rbegin. destruct si; [reflexivity|]. rewrite arith_ok by (auto; apply of_promoted; assumption). cbn. f_equal. apply convert_id; assumption.
Qed.
Lemma end_ok t ei r : integer_type t -> (ei = true -> of_type t (rto r + 1)) -> rend t ei r = Some (if ei then rto r + 1 else rto r).
Proof.
  intros HT H1. unfold rend. destruct ei; [|reflexivity]. rewrite arith_ok by (auto; apply of_promoted; auto). cbn. f_equal. apply convert_id; auto.
Qed.
Lemma iterate_spec t si ei r fuel : integer_type t -> of_type t (rfrom r) -> of_type t (rto r) -> is_empty si ei r = false ->
  (ei = true -> rto r < highest t) -> (Z.to_nat (count si ei (rfrom r) (rto r)) <= fuel)%nat ->
  exists l, iterate t fuel si ei r = Some l /\ Z.of_nat (length l) = count si ei (rfrom r) (rto r) /\
    (forall i, (i < length l)%nat -> nth i l 0 = (if si then rfrom r else rfrom r + 1) + Z.of_nat i) /\
    (forall v, In v l <-> contains si ei r v = true).
Proof.
  intros HT Hf Ht HE HM HF. unfold iterate.
  assert (X : rbegin t si r = Some (if si then rfrom r else rfrom r + 1)).
  { destruct si; [reflexivity|]. apply begin_ok; auto. unfold is_empty in HE. cbn in HE. unfold of_type in *. lia. }
  rewrite X, end_ok by (auto; intros Hi; specialize (HM Hi); unfold of_type in *; lia).
  exists (zseq (if si then rfrom r else rfrom r + 1) (Z.to_nat (count si ei (rfrom r) (rto r)))).
  split; [|split; [|split]].
  - apply loop_spec; auto.
    + unfold is_empty, count in *. destruct si, ei; cbn [andb] in HE; lia.
    + unfold is_empty, of_type in *. destruct si, ei; cbn [andb] in HE; lia.
    + unfold of_type in *. destruct ei; [specialize (HM eq_refl); lia|lia].
  - rewrite zseq_length. unfold count. lia.
  - rewrite zseq_length. intros i Hi. apply zseq_nth. exact Hi.
  - intros v. rewrite zseq_in, contains_spec. unfold between, count. destruct si, ei; lia.
Qed.
Lemma iterate_all_wrong : exists t r, integer_type t /\ of_type t (rfrom r) /\ of_type t (rto r) /\ contains true true r 5 = true /\
  forall fuel, iterate t fuel true true r = Some [].
Proof.
  exists (IT 64 false), (all (IT 64 false)). split; [unfold integer_type; cbn; auto|]. unfold of_type, lowest, highest. cbn. repeat split; try lia.
  intros [|f]; reflexivity.
Qed.
Lemma iterate_empty_wrong : exists t r, integer_type t /\ of_type t (rfrom r) /\ of_type t (rto r) /\ is_empty false false r = true /\
  iterate t 100 false false r = None.
Proof.
  exists (IT 64 false), (Range 3 3). split; [unfold integer_type; cbn; auto|].
  split; [unfold of_type, lowest, highest; cbn; lia|]. split; [unfold of_type, lowest, highest; cbn; lia|]. split; [reflexivity|]. vm_compute. reflexivity.
Qed.
