(** Proofs about the operators on multilinear evaluations and about linear combinations. *)
From Coq Require Import ZArith Lia List Bool Arith Ring Field Field_theory ZifyBool ZifyNat.
From Verif Require Import Field BigIntModel BitsModel ParallelizeModel ParallelizeSpec ParallelizeProof ParallelizeExtra Chunked SemigroupModel PolySpec PolyModel PolyProof PolyProof3 KzgProof2
  SumcheckModel SumcheckSpec SumcheckProof.
Import ListNotations.
Open Scope fld_scope.

(** ** Chunks of a range *)
Lemma size_chunks_ok threads thr size : (0 < threads)%Z -> (0 < size)%nat -> (2 * Z.of_nat size + threads < 2 ^ 64)%Z ->
  size_chunks threads thr size <> [] /\ concat (map (fun c => seq (fst c) (snd c)) (size_chunks threads thr size)) = seq 0 size.
Proof.
  intros Ht Hs Hb. unfold size_chunks. set (chunk := size_per_thread _ _ _).
  assert (Hc : (0 < chunk <= Z.of_nat size)%Z).
  { unfold chunk, size_per_thread. destruct (_ <? _)%Z; [|lia].
    rewrite (trunc_small 64 (Z.of_nat size + threads)) by lia. rewrite trunc_small by lia. split; [apply Z.div_str_pos; lia|]. apply Z.div_le_upper_bound; nia. }
  pose proof (chunk_calls_tiles (Z.of_nat size) chunk ltac:(lia) ltac:(lia) ltac:(lia)) as T. set (calls := chunk_calls _ _) in *. clearbody calls.
  pose proof (tiles_pointwise (fun i : nat => i) calls 0 0 (Z.of_nat size) ltac:(lia) T) as P. rewrite !map_id in P.
  replace (Z.to_nat (Z.of_nat size - 0)) with size in P by lia. change (Z.to_nat 0) with 0%nat in P. split.
  - intros E. apply map_eq_nil in E. subst calls. cbn in P. destruct size; [lia|discriminate P].
  - rewrite map_map. rewrite <- P. f_equal. apply map_ext. intros [[i s] m]. cbn [fst snd]. rewrite map_id. reflexivity.
Qed.

Section Ops.
  Variable K : fld.
  Add Field Ks2 : (fld_theory K).
  Implicit Types (l x y a b c : list K).

  Lemma zip_length (f : K -> K -> K) a b : length a = length b -> length (zip_with f a b) = length a.
  Proof. intros H. unfold zip_with. rewrite map_length, combine_length. lia. Qed.
  Lemma zip_nth (f : K -> K -> K) a b i : length a = length b -> (i < length a)%nat -> nth i (zip_with f a b) 0 = f (nth i a 0) (nth i b 0).
  Proof.
    intros H Hi. unfold zip_with. set (g := fun p => _). rewrite (nth_indep _ 0 (g (0, 0))) by (rewrite map_length, combine_length; lia).
    rewrite map_nth, combine_nth by exact H. reflexivity.
  Qed.
  Lemma mlx_add a b c x : length x = length x -> (forall i, (i < Nat.pow 2 (length x))%nat -> nth i c 0 = nth i a 0 + nth i b 0) -> mlx c x = mlx a x + mlx b x.
  Proof. intros _ H. unfold mlx. rewrite <- fsum_map_add. apply fsum_map_ext. intros i Hi. apply in_seq in Hi. rewrite H by lia. ring. Qed.
  Lemma mlx_opp a c x : (forall i, (i < Nat.pow 2 (length x))%nat -> nth i c 0 = - nth i a 0) -> mlx c x = - mlx a x.
  Proof.
    intros H. transitivity ((- (1)) * mlx a x); [|ring]. unfold mlx. rewrite <- fsum_map_mul. apply fsum_map_ext. intros i Hi. apply in_seq in Hi. rewrite H by lia. ring.
  Qed.
  Lemma map_opp_nth a i : nth i (map fopp a) 0 = - nth i a 0.
  Proof. destruct (nth_in_or_default i a 0) as [H|H].
    - destruct (Nat.lt_ge_cases i (length a)) as [L|L]; [|rewrite !nth_overflow by (rewrite ?map_length; lia); ring].
      rewrite (nth_indep _ 0 (fopp 0)) by (rewrite map_length; exact L). rewrite map_nth. reflexivity.
    - destruct (Nat.lt_ge_cases i (length a)) as [L|L]; [|rewrite !nth_overflow by (rewrite ?map_length; lia); ring].
      rewrite (nth_indep _ 0 (fopp 0)) by (rewrite map_length; exact L). rewrite map_nth. reflexivity.
  Qed.
  Section N.
    Variables (n md : nat).
    Hypotheses (Hn : (n < 64)%nat) (Hm : (n <= md)%nat).
    Lemma nonempty_length l : values_for n l -> l <> [] -> length l = Nat.pow 2 n. Proof. intros [H|H] N; [contradiction|exact H]. Qed.
    Lemma add_ok a b : values_for n a -> values_for n b -> exists c, mle_add md a b = Some c /\ values_for n c /\ forall x, length x = n -> mlx c x = mlx a x + mlx b x.
    Proof.
      intros Ha Hb. destruct a as [|a0 a]. { exists b. split; [reflexivity|]. split; [exact Hb|]. intros x _. rewrite mlx_empty. ring. }
      destruct b as [|b0 b]. { exists (a0 :: a). split; [reflexivity|]. split; [exact Ha|]. intros x _. rewrite (mlx_empty K x). ring. }
      apply nonempty_length in Ha; [|discriminate]. apply nonempty_length in Hb; [|discriminate].
      assert (E : length (a0 :: a) = length (b0 :: b)) by lia. unfold mle_add. rewrite E, Nat.eqb_refl.
      exists (zip_with fadd (a0 :: a) (b0 :: b)). assert (L : length (zip_with fadd (a0 :: a) (b0 :: b)) = Nat.pow 2 n) by (rewrite zip_length; lia).
      split; [apply (make_ok K md n); assumption|]. split; [right; exact L|]. intros x Hx. apply mlx_add; [reflexivity|]. intros i Hi. apply zip_nth; [exact E|]. rewrite Hx in Hi. lia.
    Qed.
    Lemma negate_ok b : values_for n b -> exists c, mle_negate md b = Some c /\ values_for n c /\ forall x, length x = n -> mlx c x = - mlx b x.
    Proof.
      intros Hb. destruct b as [|b0 b]. { exists []. split; [reflexivity|]. split; [exact Hb|]. intros x _. rewrite mlx_empty. ring. }
      apply nonempty_length in Hb; [|discriminate]. exists (map fopp (b0 :: b)). assert (L : length (map fopp (b0 :: b)) = Nat.pow 2 n) by (rewrite map_length; exact Hb).
      split; [apply (make_ok K md n); assumption|]. split; [right; exact L|]. intros x Hx. apply mlx_opp. intros i _. apply map_opp_nth.
    Qed.
    Lemma sub_ok a b : values_for n a -> values_for n b -> exists c, mle_sub md a b = Some c /\ values_for n c /\ forall x, length x = n -> mlx c x = mlx a x - mlx b x.
    Proof.
      intros Ha Hb. destruct a as [|a0 a].
      { destruct (negate_ok b Hb) as (c & E & V & N). exists c. split; [destruct b; exact E|]. split; [exact V|]. intros x Hx. rewrite mlx_empty, N by exact Hx. ring. }
      destruct b as [|b0 b]. { exists (a0 :: a). split; [reflexivity|]. split; [exact Ha|]. intros x _. rewrite (mlx_empty K x). ring. }
      apply nonempty_length in Ha; [|discriminate]. apply nonempty_length in Hb; [|discriminate].
      assert (E : length (a0 :: a) = length (b0 :: b)) by lia. unfold mle_sub. rewrite E, Nat.eqb_refl.
      exists (zip_with fsub (a0 :: a) (b0 :: b)). assert (L : length (zip_with fsub (a0 :: a) (b0 :: b)) = Nat.pow 2 n) by (rewrite zip_length; lia).
      split; [apply (make_ok K md n); assumption|]. split; [right; exact L|]. intros x Hx.
      rewrite (mlx_add (a0 :: a) (map fopp (b0 :: b)) _ x eq_refl).
      - rewrite (mlx_opp (b0 :: b) (map fopp (b0 :: b)) x) by (intros i _; apply map_opp_nth). ring.
      - intros i Hi. rewrite map_opp_nth, zip_nth; [ring|exact E|rewrite Hx in Hi; lia].
    Qed.
    Lemma mul_ok a b : values_for n a -> values_for n b -> exists c, mle_mul md a b = Some c /\ values_for n c /\
      forall i, (i < Nat.pow 2 n)%nat -> mlx c (corner n i) = mlx a (corner n i) * mlx b (corner n i).
    Proof.
      intros Ha Hb. destruct a as [|a0 a]. { exists []. split; [reflexivity|]. split; [left; reflexivity|]. intros i _. rewrite (mlx_empty K (corner n i)). ring. }
      destruct b as [|b0 b]. { exists []. split; [reflexivity|]. split; [left; reflexivity|]. intros i _. rewrite (mlx_empty K (corner n i)). ring. }
      apply nonempty_length in Ha; [|discriminate]. apply nonempty_length in Hb; [|discriminate].
      assert (E : length (a0 :: a) = length (b0 :: b)) by lia. unfold mle_mul. rewrite E, Nat.eqb_refl.
      exists (zip_with fmul (a0 :: a) (b0 :: b)). assert (L : length (zip_with fmul (a0 :: a) (b0 :: b)) = Nat.pow 2 n) by (rewrite zip_length; lia).
      split; [apply (make_ok K md n); assumption|]. split; [right; exact L|]. intros i Hi. rewrite !mlx_corner by exact Hi. apply zip_nth; [exact E|lia].
    Qed.
    (** The quotient exists exactly when the divisor is not zero at any corner. *)
    Lemma div_ok a b : values_for n a -> length b = Nat.pow 2 n -> (forall i, (i < Nat.pow 2 n)%nat -> mlx b (corner n i) <> 0) ->
      exists c, mle_div md a b = Some (Some c) /\ values_for n c /\ forall i, (i < Nat.pow 2 n)%nat -> mlx c (corner n i) * mlx b (corner n i) = mlx a (corner n i).
    Proof.
      intros Ha Hb Hz. pose proof (Nat.pow_nonzero 2 n ltac:(lia)) as P. destruct b as [|b0 b]; [cbn in Hb; lia|].
      destruct a as [|a0 a]. { exists []. split; [reflexivity|]. split; [left; reflexivity|]. intros i _. rewrite (mlx_empty K (corner n i)). ring. }
      apply nonempty_length in Ha; [|discriminate]. assert (E : length (a0 :: a) = length (b0 :: b)) by lia. unfold mle_div. rewrite E, Nat.eqb_refl.
      destruct (existsb (fun z : K => feqb z 0) (b0 :: b)) eqn:X.
      { apply existsb_exists in X. destruct X as (z & Hy & Ey). apply feqb_eq in Ey. subst z. apply (In_nth _ _ 0) in Hy. destruct Hy as (i & Hi & Ei).
        exfalso. apply (Hz i ltac:(lia)). rewrite mlx_corner by lia. exact Ei. }
      exists (zip_with fdiv (a0 :: a) (b0 :: b)). assert (L : length (zip_with fdiv (a0 :: a) (b0 :: b)) = Nat.pow 2 n) by (rewrite zip_length; lia).
      rewrite (make_ok K md n) by assumption. split; [reflexivity|]. split; [right; exact L|]. intros i Hi. specialize (Hz i Hi).
      rewrite !mlx_corner in * by exact Hi. rewrite (zip_nth fdiv (a0 :: a) (b0 :: b)) by lia. field. exact Hz.
    Qed.
    Lemma div_zero a b i : values_for n b -> a <> [] -> (i < Nat.pow 2 n)%nat -> mlx b (corner n i) = 0 -> mle_div md a b = Some None.
    Proof.
      intros Hb Ha Hi Hz. destruct b as [|b0 b]; [reflexivity|]. destruct a as [|a0 a]; [contradiction|]. unfold mle_div.
      destruct (Nat.eqb _ _); [|reflexivity]. replace (existsb _ _) with true; [reflexivity|]. symmetry. apply existsb_exists.
      apply nonempty_length in Hb; [|discriminate]. rewrite mlx_corner in Hz by exact Hi. exists (nth i (b0 :: b) 0). split; [apply nth_In; lia|]. rewrite Hz. apply feqb_refl.
    Qed.
    Lemma sizes_differ a b : a <> [] -> b <> [] -> length a <> length b -> mle_add md a b = None /\ mle_sub md a b = None /\ mle_mul md a b = None /\ mle_div md a b = Some None.
    Proof.
      intros Ha Hb H. apply Nat.eqb_neq in H. destruct a as [|a0 a]; [contradiction|]. destruct b as [|b0 b]; [contradiction|].
      unfold mle_add, mle_sub, mle_mul, mle_div. rewrite H. repeat split; reflexivity.
    Qed.
    (** operator== *)
    Lemma vec_eqb_eq : forall a b, vec_eqb a b = true <-> a = b.
    Proof.
      induction a as [|u a IH]; intros [|w b]; cbn [vec_eqb]; try (split; intros; congruence).
      rewrite andb_true_iff, IH. split; [intros [H1 H2]; apply feqb_eq in H1; congruence|]. intros [= -> ->]. split; [apply feqb_refl|reflexivity].
    Qed.
    Lemma zero_everywhere b : values_for n b -> mle_is_zero b = true <-> forall x, length x = n -> mlx b x = 0.
    Proof.
      intros Hb. rewrite is_zero_all. split.
      - intros H x _. unfold mlx. apply fsum_map_zero. intros i _. destruct (Nat.lt_ge_cases i (length b)) as [L|L].
        + rewrite (H (nth i b 0)) by (apply nth_In; exact L). ring.
        + rewrite nth_overflow by exact L. ring.
      - intros H y Hy. apply (In_nth _ _ 0) in Hy. destruct Hy as (i & Hi & <-). destruct Hb as [->|Hb]; [cbn in Hi; lia|].
        rewrite <- (mlx_corner K n) by lia. apply H. apply corner_length.
    Qed.
    Lemma equal_functions a b : values_for n a -> values_for n b -> mle_eqb a b = true <-> forall x, length x = n -> mlx a x = mlx b x.
    Proof.
      intros Ha Hb. destruct a as [|a0 a].
      { cbn [mle_eqb]. rewrite (zero_everywhere b Hb). split; intros H x Hx; [rewrite mlx_empty; symmetry; apply H; exact Hx|]. rewrite <- (H x Hx). apply mlx_empty. }
      destruct b as [|b0 b].
      { cbn [mle_eqb]. rewrite (zero_everywhere (a0 :: a) Ha). split; intros H x Hx; [rewrite (mlx_empty K x); apply H; exact Hx|]. rewrite (H x Hx). apply mlx_empty. }
      apply nonempty_length in Ha; [|discriminate]. apply nonempty_length in Hb; [|discriminate]. cbn [mle_eqb]. rewrite vec_eqb_eq. split; [intros ->; reflexivity|].
      intros H. apply (nth_ext _ _ 0 0); [lia|]. intros i Hi. rewrite <- !(mlx_corner K n) by lia. apply H. apply corner_length.
    Qed.
  End N.
End Ops.
