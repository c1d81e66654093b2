(** Property theorems C114-C117: two-adic cosets and their selectors, interpolation over a coset.
    DomainSpec.v defines [coset_points h g n] (the points h, h*g, ..., h*g^(n-1)); FFTSpec.v defines [radix2_domain] (what the constructor returns for
    log_n and shift), [generator] and [primitive_root]. *)
From Coq Require Import ZArith List Bool Arith Lia Permutation.
From Verif Require Import Field Zp PolySpec FFTModel FFTSpec DomainSpec CosetModel CosetProof CosetProof2 CosetExtra.
Import ListNotations.
Open Scope fld_scope.

(** The constructor accepts every non-zero shift and every size up to the two-adicity. *)
Theorem C114_constructor : forall (K : fld) (adicity : nat) (root : K) (k : nat) (h : K),
  (adicity < 62)%nat -> primitive_root root (2 ^ adicity) -> (k <= adicity)%nat -> h <> 0 ->
  exists d, new_coset adicity root k h = Some d /\ radix2_domain adicity root k h d.
Proof. exact (fun K ad root k h H1 H2 => new_coset_spec K ad root H1 H2 k h). Qed.
Print Assumptions C114_constructor.

(** GetZpAtPoint vanishes exactly on the coset; GetNextPoint walks round it. *)
Theorem C114_points : forall (K : fld) (adicity : nat) (root : K) (k : nat) (h : K) (d : domain K),
  (adicity < 62)%nat -> primitive_root root (2 ^ adicity) -> (k <= adicity)%nat -> radix2_domain adicity root k h d ->
  let points := coset_points h (generator adicity root k) (2 ^ k) in
  (forall x, zp_at d x = (x * finv h) ^ (2 ^ k) - 1 /\ (zp_at d x = 0 <-> In x points)) /\
  (forall i, (i < 2 ^ k)%nat -> next_point d (nth i points 0) = nth (Nat.modulo (S i) (2 ^ k)) points 0).
Proof. exact (fun K ad root k h d H1 H2 H3 H4 => conj (fun x => zp_spec K ad root H1 H2 d k h x H3 H4) (fun i => next_point_spec K ad root H1 H2 d k h i H3 H4)). Qed.
Print Assumptions C114_points.

(** SplitDomains(2^j) returns 2^j cosets of equal size that partition the points: the c-th holds the points with index c modulo 2^j, in order. *)
Theorem C114_split : forall (K : fld) (adicity : nat) (root : K) (k j : nat) (h : K) (d : domain K),
  (adicity < 62)%nat -> primitive_root root (2 ^ adicity) -> (k <= adicity)%nat -> radix2_domain adicity root k h d -> (j <= k)%nat ->
  let g := generator adicity root k in
  (exists ds, split_domains adicity root d (2 ^ j) = Some ds /\ length ds = (2 ^ j)%nat /\
    forall c, (c < 2 ^ j)%nat -> exists dc, nth_error ds c = Some dc /\ radix2_domain adicity root (k - j) (h * g ^ c) dc) /\
  generator adicity root (k - j) = g ^ (2 ^ j) /\
  Permutation (coset_points h g (2 ^ k)) (flat_map (fun c => coset_points (h * g ^ c) (generator adicity root (k - j)) (2 ^ (k - j))) (seq 0 (2 ^ j))).
Proof.
  exact (fun K ad root k j h d H1 H2 H3 H4 H5 => conj (split_spec K ad root H1 H2 d k h j H3 H4 H5)
    (conj (gen_sub K ad root H1 k j (conj H5 H3)) (split_points K ad root H1 k h j H3 H5))).
Qed.
Print Assumptions C114_split.

(** CreateDisjointDomain(m) returns the smallest coset with at least m points, and it shares no point with this one. *)
Theorem C114_disjoint : forall (K : fld) (adicity : nat) (root subgroup_gen : K) (k m : nat) (h : K) (d : domain K),
  (adicity < 62)%nat -> primitive_root root (2 ^ adicity) -> (k <= adicity)%nat -> radix2_domain adicity root k h d ->
  subgroup_gen ^ (2 ^ adicity) <> 1 -> subgroup_gen <> 0 -> (0 < m)%nat -> (m <= 2 ^ adicity)%nat ->
  exists d' k', disjoint_domain adicity root subgroup_gen d (Z.of_nat m) = Some d' /\ (k' <= adicity)%nat /\ radix2_domain adicity root k' (h * subgroup_gen) d' /\
    (m <= 2 ^ k')%nat /\ (forall j, (m <= 2 ^ j)%nat -> (k' <= j)%nat) /\
    forall x, In x (coset_points h (generator adicity root k) (2 ^ k)) -> ~ In x (coset_points (h * subgroup_gen) (generator adicity root k') (2 ^ k')).
Proof. exact (fun K ad root sg k m h d H1 H2 H3 H4 => disjoint_spec K ad root H1 H2 d k h sg m H3 H4). Qed.
Print Assumptions C114_disjoint.

(** GetSelectorsAtPoint: off the coset the quotients of the vanishing polynomial by the first and the last point, the factor of the last point and the inverse
    of the vanishing polynomial; on the coset it aborts. *)
Theorem C114_selectors : forall (K : fld) (adicity : nat) (root : K) (k : nat) (h x : K) (d : domain K),
  (adicity < 62)%nat -> primitive_root root (2 ^ adicity) -> (k <= adicity)%nat -> radix2_domain adicity root k h d ->
  let points := coset_points h (generator adicity root k) (2 ^ k) in
  let u := x * finv h in
  let last := finv (generator adicity root k) in
  (In x points -> selectors_at d x = None) /\
  (~ In x points ->
    selectors_at d x = Some {| s_first := (u ^ (2 ^ k) - 1) * finv (u - 1); s_last := (u ^ (2 ^ k) - 1) * finv (u - last);
                               s_transition := u - last; s_inv_zeroifier := finv (u ^ (2 ^ k) - 1) |}
    /\ u - 1 <> 0 /\ u - last <> 0 /\ u ^ (2 ^ k) - 1 <> 0).
Proof. exact (fun K ad root k h x d H1 H2 => selectors_at_spec K ad root H1 H2 d k h x). Qed.
Print Assumptions C114_selectors.

(** On a disjoint coset of the same size, GetSelectorsOnCoset returns at each point what GetSelectorsAtPoint returns there, for any number of threads. *)
Theorem C114_selectors_on_coset : forall (K : fld) (adicity : nat) (root : K) (threads : Z) (k : nat) (h : K) (d coset : domain K),
  (adicity < 62)%nat -> primitive_root root (2 ^ adicity) -> (0 < threads < 2 ^ 62)%Z -> (k <= adicity)%nat ->
  radix2_domain adicity root k 1 d -> radix2_domain adicity root k h coset -> h ^ (2 ^ k) <> 1 ->
  exists s, selectors_on threads d coset = Some s /\
    length (s_first s) = (2 ^ k)%nat /\ length (s_last s) = (2 ^ k)%nat /\ length (s_transition s) = (2 ^ k)%nat /\ length (s_inv_zeroifier s) = (2 ^ k)%nat /\
    forall i, (i < 2 ^ k)%nat ->
      selectors_at d (nth i (coset_points h (generator adicity root k) (2 ^ k)) 0) =
      Some {| s_first := nth i (s_first s) 0; s_last := nth i (s_last s) 0; s_transition := nth i (s_transition s) 0; s_inv_zeroifier := nth i (s_inv_zeroifier s) 0 |}.
Proof. exact (fun K ad root th k h d c H1 H2 => selectors_agree K ad root H1 H2 th d c k h). Qed.
Print Assumptions C114_selectors_on_coset.

(** GF(13): two-adicity 2, root 8, the generator 2 of the whole group. *)
Notation g13 n := (mkz 13 (prime_check_sound 13 eq_refl) n : F13).
Lemma root13 : primitive_root (g13 8) (2 ^ 2).
Proof.
  split; [apply zp_eq; vm_compute; reflexivity|]. intros i Hi. destruct i as [|i]; [lia|].
  do 3 (destruct i as [|i]; [intros H; apply (f_equal (zval 13)) in H; vm_compute in H; discriminate|]). cbn in Hi. lia.
Qed.
Lemma gen13 : g13 2 ^ (2 ^ 2) <> 1 /\ g13 2 <> 0.
Proof. split; intros H; apply (f_equal (zval 13)) in H; vm_compute in H; discriminate. Qed.
(** The subgroup {1, 8, 12, 5}: its halves, a disjoint coset of at least 3 points, the selectors at 2 and those on the coset of 2. *)
Example C114_nonvacuous :
  match new_coset 2 (g13 8) 2 (g13 1), new_coset 2 (g13 8) 2 (g13 2) with
  | Some d, Some c =>
      option_map (map (fun e : domain F13 => (d_size e, zval 13 (d_off e), zval 13 (d_gen e)))) (split_domains 2 (g13 8) d 2) = Some [(2%nat, 1%Z, 12%Z); (2%nat, 8%Z, 12%Z)] /\
      option_map (fun e : domain F13 => (d_size e, zval 13 (d_off e))) (disjoint_domain 2 (g13 8) (g13 2) d 3) = Some (4%nat, 2%Z) /\
      option_map (fun s : selectors F13 => (zval 13 (s_first s), zval 13 (s_last s), zval 13 (s_transition s), zval 13 (s_inv_zeroifier s))) (selectors_at d (g13 2)) = Some (2, 8, 10, 7)%Z /\
      option_map (fun s : selectors (list F13) => map (zval 13) (s_first s)) (selectors_on 3 d c) = Some [2; 1; 8; 6]%Z
  | _, _ => False
  end.
Proof. vm_compute. repeat split. Qed.

(** The stated use of GetSelectorsOnCoset, a coset larger than the domain (the quotient domain), always aborts: CHECK_GE is the wrong way round. *)
Theorem C115_larger_coset_refuted : forall (K : fld) (adicity : nat) (root : K) (threads : Z) (k k' : nat) (h : K) (d coset : domain K),
  (adicity < 62)%nat -> primitive_root root (2 ^ adicity) -> (k < k' <= adicity)%nat ->
  radix2_domain adicity root k 1 d -> radix2_domain adicity root k' h coset ->
  selectors_on threads d coset = None.
Proof. exact (fun K ad root th k k' h d c H1 H2 => selectors_on_larger K ad root H1 H2 th d c k k' h). Qed.
Print Assumptions C115_larger_coset_refuted.
(** Yet every point of such a coset has selectors. *)
Example C115_nonvacuous :
  match new_coset 2 (g13 8) 1 (g13 1), new_coset 2 (g13 8) 2 (g13 2) with
  | Some d, Some c =>
      selectors_on 1 d c = None /\
      map (fun i : Z => match selectors_at d (get_element c i) with Some s => zval 13 (s_first s) | None => (-1)%Z end) [0; 1; 2; 3]%Z = [3; 4; 12; 11]%Z
  | _, _ => False
  end.
Proof. vm_compute. repeat split. Qed.

(** InterpolateCoset returns, for each column, the value at the point of the polynomial whose values on the coset the column holds; any number of threads. *)
Theorem C116_interpolate : forall (K : fld) (adicity : nat) (root : K) (threads : Z) (k : nat) (columns : list (list K)) (h tau : K),
  (adicity < 62)%nat -> primitive_root root (2 ^ adicity) -> (0 < threads < 2 ^ 62)%Z -> (k <= adicity)%nat -> h <> 0 ->
  Forall (fun f => (length f <= 2 ^ k)%nat) columns -> ~ In tau (coset_points h (generator adicity root k) (2 ^ k)) ->
  interpolate_coset adicity root threads (length columns) (map (fun x => map (fun f => eval f x) columns) (coset_points h (generator adicity root k) (2 ^ k))) h tau =
  Some (map (fun f => eval f tau) columns).
Proof.
  exact (fun K ad root th k cols h tau H1 H2 H3 H4 H5 H6 H7 =>
    eq_trans (f_equal (fun m => interpolate_coset ad root th (length cols) m h tau) (map_map _ _ _)) (interpolate_outside K ad root H1 H2 th k cols h tau H3 H4 H5 H6 H7)).
Qed.
Print Assumptions C116_interpolate.
Example C116_nonvacuous :
  let columns := [[g13 3; g13 5; g13 7; g13 1]; [g13 4]] in
  let points := coset_points (g13 2) (generator 2 (g13 8) 2) (2 ^ 2) in
  map (zval 13) points = [2; 3; 11; 10]%Z /\
  option_map (map (zval 13)) (interpolate_coset 2 (g13 8) 3 2 (map (fun x => map (fun f => eval f x) columns) points) (g13 2) (g13 6)) = Some [7; 4]%Z /\
  map (fun f : list F13 => zval 13 (eval f (g13 6))) columns = [7; 4]%Z.
Proof. vm_compute. repeat split. Qed.

(** At a point of the coset InterpolateCoset returns zeros, whatever the values. *)
Theorem C117_point_of_the_coset_refuted : forall (K : fld) (adicity : nat) (root : K) (threads : Z) (k : nat) (columns : list (list K)) (h tau : K),
  (adicity < 62)%nat -> primitive_root root (2 ^ adicity) -> (0 < threads < 2 ^ 62)%Z -> (k <= adicity)%nat -> h <> 0 ->
  In tau (coset_points h (generator adicity root k) (2 ^ k)) ->
  interpolate_coset adicity root threads (length columns) (map (fun x => map (fun f => eval f x) columns) (coset_points h (generator adicity root k) (2 ^ k))) h tau =
  Some (repeat 0 (length columns)).
Proof.
  exact (fun K ad root th k cols h tau H1 H2 H3 H4 H5 H6 =>
    eq_trans (f_equal (fun m => interpolate_coset ad root th (length cols) m h tau) (map_map _ _ _))
      (interpolate_inside K ad root H1 H2 th k cols (fun i f => eval f (h * generator ad root k ^ i)) h tau H3 H4 H5 H6)).
Qed.
Print Assumptions C117_point_of_the_coset_refuted.
Example C117_nonvacuous :
  let points := coset_points (g13 2) (generator 2 (g13 8) 2) (2 ^ 2) in
  option_map (map (zval 13)) (interpolate_coset 2 (g13 8) 3 1 (map (fun x => [eval [g13 3; g13 5] x]) points) (g13 2) (g13 3)) = Some [0]%Z /\
  zval 13 (eval [g13 3; g13 5] (g13 3)) = 5%Z /\ map (zval 13) points = [2; 3; 11; 10]%Z.
Proof. vm_compute. repeat split. Qed.
