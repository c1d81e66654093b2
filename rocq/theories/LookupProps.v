(** Property theorems C63 and C105-C108: the lookup and the permutation argument of the Halo2 prover and verifier.
    Outcomes of [permute_expression_pair]: [None] undefined behaviour or a failed CHECK, [Some None] returns false, [Some (Some (A', S'))] returns true.
    The expressions of the verifiers are those of lookup/halo2/verifier.h and permutation_verifier.h, read on the rows of the domain. *)
From Coq Require Import ZArith List Bool Lia Arith Permutation Sorted Ring Field Field_theory.
From Verif Require Import Field Zp FFTSpec CycleModel CycleSpec CycleLabelModel LookupModel LookupSpec LookupProof GrandProductModel GrandProductSpec GrandProductExtra GrandProductPerm GrandProductSound.
Import ListNotations.
Open Scope nat_scope.

(** ** C63: PermuteExpressionPair. False exactly when some usable input is missing from the usable table; otherwise A' and S' are permutations of the usable rows, A' ascending,
    the first rows agree and every row of A' equals S' there or A' on the row before; the blinding rows are the generator's next values. *)
Theorem C63_permute_expression_pair : forall (F : Type) (eqb ltb : F -> F -> bool), (forall x y, reflect (x = y) (eqb x y)) -> strict_total ltb ->
  forall (zero : F) (sort : list F -> list F), sorts ltb sort ->
  forall (n bf : nat) (rnd : nat -> F) (input table : list F), length input = n -> length table = n -> bf + 1 < n ->
  let u := n - (bf + 1) in
  ((exists x, In x (firstn u input) /\ ~ In x (firstn u table)) -> permute_expression_pair F eqb ltb zero sort n bf rnd input table = Some None) /\
  (incl (firstn u input) (firstn u table) -> exists a s,
     permute_expression_pair F eqb ltb zero sort n bf rnd input table = Some (Some (a ++ map rnd (seq 0 (bf + 1)), s ++ map rnd (seq (bf + 1) (bf + 1)))) /\
     Permutation (firstn u input) a /\ Permutation (firstn u table) s /\ ascending ltb a /\
     nth_error a 0 = nth_error s 0 /\
     forall i, i < u -> nth_error a i = nth_error s i \/ (0 < i /\ nth_error a i = nth_error a (i - 1))).
Proof. exact (fun F eqb ltb Heq Hlt zero sort Hs => permute_pair_ok F eqb ltb Heq (proj1 Hlt) (proj1 (proj2 Hlt)) (proj2 (proj2 Hlt)) zero sort (fun l => proj1 (Hs l)) (fun l => proj2 (Hs l))). Qed.
Print Assumptions C63_permute_expression_pair.

(** An order and a sort as required: insertion sort by a key into Z. *)
Fixpoint insert_key {F} (key : F -> Z) (x : F) (l : list F) : list F :=
  match l with [] => [x] | y :: r => if (key y <? key x)%Z then y :: insert_key key x r else x :: l end.
Definition sort_key {F} (key : F -> Z) (l : list F) : list F := fold_right (insert_key key) [] l.
Lemma sort_key_sorts : forall F (key : F -> Z), sorts (fun x y => (key x <? key y)%Z) (sort_key key).
Proof.
  intros F key.
  assert (IP : forall x l, Permutation (x :: l) (insert_key key x l)).
  { intros x l. induction l as [|y l IH]; [reflexivity|]. cbn [insert_key]. destruct (key y <? key x)%Z; [|reflexivity]. rewrite perm_swap. now constructor. }
  assert (IA : forall x l, ascending (fun x y => (key x <? key y)%Z) l -> ascending (fun x y => (key x <? key y)%Z) (insert_key key x l)).
  { unfold ascending. intros x l H. induction H as [|y l H IH HF]; [repeat constructor|]. cbn [insert_key]. destruct (Z.ltb_spec (key y) (key x)) as [E|E].
    - constructor; [exact IH|]. apply (Permutation_Forall (IP x l)). constructor; [apply Z.ltb_ge; lia|exact HF].
    - constructor; [now constructor|]. constructor; [now apply Z.ltb_ge|]. eapply Forall_impl; [|exact HF]. cbn beta. intros z Hz. apply Z.ltb_ge. apply Z.ltb_ge in Hz. lia. }
  intros l. induction l as [|x l [IH1 IH2]]; [split; [constructor|constructor]|]. split; [|now apply IA]. cbn [sort_key fold_right]. etransitivity; [|apply IP]. now constructor.
Qed.
Lemma key_total : forall F (key : F -> Z), (forall x y, key x = key y -> x = y) -> strict_total (fun x y => (key x <? key y)%Z).
Proof. intros F key inj. split; [intros x; apply Z.ltb_irrefl|]. split; [intros x y z H1 H2; apply Z.ltb_lt in H1, H2; apply Z.ltb_lt; lia|]. intros x y H1 H2. apply Z.ltb_ge in H1, H2. apply inj. lia. Qed.

Example C63_nonvacuous :
  strict_total (fun x y => (Z.of_nat x <? Z.of_nat y)%Z) /\ sorts (fun x y => (Z.of_nat x <? Z.of_nat y)%Z) (sort_key Z.of_nat) /\
  (let run := permute_expression_pair nat Nat.eqb (fun x y => (Z.of_nat x <? Z.of_nat y)%Z) 0 (sort_key Z.of_nat) 7 1 (fun i => 90 + i) in
   run [5; 2; 5; 1; 2; 9; 9] [1; 4; 5; 2; 8; 9; 9] = Some (Some ([1; 2; 2; 5; 5; 90; 91], [1; 2; 8; 5; 4; 92; 93])) /\
   run [5; 2; 5; 1; 3; 9; 9] [1; 4; 5; 2; 8; 9; 9] = Some None).
Proof. split; [apply key_total; intros; lia|]. split; [apply sort_key_sorts|]. split; reflexivity. Qed.

(** ** C105: lookup completeness. When every usable input is in the table and the challenges hit none of their negatives, the prover's pair and grand product make all five expressions of the verifier vanish on every row of the domain. *)
Theorem C105_lookup_completeness : forall (K : fld) (ltb : K -> K -> bool), strict_total ltb -> forall (sort : list K -> list K), sorts ltb sort ->
  forall (n bf : nat) (rnd rnd' : nat -> K) (from : nat) (input table : list K) (beta gamma : K), length input = n -> length table = n -> bf + 1 < n ->
  let u := n - (bf + 1) in
  incl (firstn u input) (firstn u table) ->
  (forall x, In x (firstn u input) -> (x + beta <> 0)%fld) -> (forall x, In x (firstn u table) -> (x + gamma <> 0)%fld) ->
  exists a' s' z from',
    permute_expression_pair K feqb ltb 0%fld sort n bf rnd input table = Some (Some (a', s')) /\
    lookup_grand_product n bf rnd' from beta gamma input table a' s' = Some (z, from') /\
    length a' = n /\ length s' = n /\ length z = n /\
    forall j, j < n ->
      lookup_verifier_evals (first_row j) (last_row u j) (blind_row u j) beta gamma (cell z j) (cell z (next_row n j))
        (cell a' j) (cell a' (prev_row n j)) (cell s' j) (cell input j) (cell table j) = [0; 0; 0; 0; 0]%fld.
Proof. exact (fun K ltb Hlt sort Hs => lookup_complete K ltb (proj1 Hlt) (proj1 (proj2 Hlt)) (proj2 (proj2 Hlt)) sort (fun l => proj1 (Hs l)) (fun l => proj2 (Hs l))). Qed.
Print Assumptions C105_lookup_completeness.
Definition m13 (n : Z) : F13 := mkz 13 (prime_check_sound 13 eq_refl) n.
Example C105_nonvacuous :
  strict_total (fun x y : F13 => (zval 13 x <? zval 13 y)%Z) /\
  match permute_expression_pair F13 feqb (fun x y : F13 => (zval 13 x <? zval 13 y)%Z) 0%fld (sort_key (zval 13)) 5 1 (fun i => m13 (Z.of_nat i)) [m13 4; m13 2; m13 4; m13 0; m13 0] [m13 2; m13 7; m13 4; m13 0; m13 0] with
  | Some (Some (a', s')) =>
      map (zval 13) a' = [2; 4; 4; 0; 1]%Z /\ map (zval 13) s' = [2; 4; 7; 2; 3]%Z /\
      match lookup_grand_product 5 1 (fun i => m13 (Z.of_nat i)) 7 (m13 3) (m13 1) [m13 4; m13 2; m13 4; m13 0; m13 0] [m13 2; m13 7; m13 4; m13 0; m13 0] a' s' with
      | Some (z, 8) => map (zval 13) z = [1; 4; 12; 1; 7]%Z
      | _ => False
      end
  | _ => False
  end.
Proof. split; [apply key_total; intros; now apply zp_eq|]. vm_compute. repeat split. Qed.

(** ** C106: lookup soundness on the domain. Whatever columns A', S', Z make the five expressions vanish on every row, A' only holds values of S'; and unless a challenge is the negative of a usable value, the two products of the grand product are equal. *)
Theorem C106_lookup_identity : forall (K : fld) (n u : nat) (beta gamma : K) (z a' s' a s : nat -> K), 0 < u < n ->
  (forall j, j < n -> lookup_verifier_evals (first_row j) (last_row u j) (blind_row u j) beta gamma (z j) (z (next_row n j)) (a' j) (a' (prev_row n j)) (s' j) (a j) (s j) = [0; 0; 0; 0; 0]%fld) ->
  (forall j, j < u -> exists i, i <= j /\ a' j = s' i) /\
  ((forall j, j < u -> ((a j + beta) * (s j + gamma) <> 0)%fld) ->
   fprod (map (fun j => ((a j + beta) * (s j + gamma))%fld) (seq 0 u)) = fprod (map (fun j => ((a' j + beta) * (s' j + gamma))%fld) (seq 0 u))).
Proof. exact (fun K => lookup_sound K). Qed.
Print Assumptions C106_lookup_identity.
(** Counted over the challenges: A', S' being fixed before them, if more than 3 u |X| of the pairs in X * X are accepted (with any Z, which may depend on the pair), every usable input is in the table. *)
Theorem C106_lookup_soundness : forall (K : fld) (n u : nat) (a' s' a s : nat -> K) (X : list K) (P : list (K * K)), 0 < u < n -> NoDup X -> NoDup P ->
  (forall p, In p P -> In (fst p) X /\ In (snd p) X /\ lookup_accepts n u a' s' a s p) ->
  3 * u * length X < length P ->
  Permutation (map a (seq 0 u)) (map a' (seq 0 u)) /\ Permutation (map s (seq 0 u)) (map s' (seq 0 u)) /\ forall j, j < u -> exists i, i < u /\ a j = s i.
Proof. exact (fun K => lookup_counted K). Qed.
Print Assumptions C106_lookup_soundness.
(** All 169 pairs over F13 are accepted for the inputs 1, 1 and the table 1, 2; 169 > 3 * 2 * 13. *)
Add Field F13lookup : (fld_theory F13).
Definition all13 : list F13 := map (fun i => m13 (Z.of_nat i)) (seq 0 13).
Lemma all13_nodup : NoDup all13.
Proof. apply (NoDup_map_inv (zval 13)). vm_compute. repeat constructor; cbn; intuition discriminate. Qed.
Lemma pairs_nodup : forall {A} (X : list A), NoDup X -> NoDup (list_prod X X).
Proof.
  intros A X H. assert (W : forall Y : list A, NoDup Y -> NoDup (list_prod Y X)); [|now apply W].
  intros Y HY. induction HY as [|y Y Hy HY IH]; [constructor|]. cbn [list_prod].
  assert (D : forall p, In p (map (fun b => (y, b)) X) -> ~ In p (list_prod Y X)).
  { intros p Hp Hq. apply in_map_iff in Hp. destruct Hp as (b & <- & _). apply in_prod_iff in Hq. now apply Hy. }
  assert (M : NoDup (map (fun b => (y, b)) X)) by (apply FinFun.Injective_map_NoDup; [intros p q E; congruence|exact H]).
  clear - D M IH. induction M as [|p l Hp M IHl]; [exact IH|]. cbn [app]. constructor; [|apply IHl; intros q Hq; apply D; now right].
  intros Hin. apply in_app_iff in Hin. destruct Hin as [Hin|Hin]; [contradiction|]. apply (D p); [now left|exact Hin].
Qed.
Example C106_nonvacuous :
  let a := fun j => cell [m13 1; m13 1; m13 5] j in let s := fun j => cell [m13 1; m13 2; m13 6] j in
  NoDup all13 /\ NoDup (list_prod all13 all13) /\ (forall p, In p (list_prod all13 all13) -> In (fst p) all13 /\ In (snd p) all13 /\ lookup_accepts 3 2 a s a s p) /\ 3 * 2 * length all13 < length (list_prod all13 all13).
Proof.
  intros a s. split; [exact all13_nodup|]. split; [exact (pairs_nodup _ all13_nodup)|]. split.
  - intros [b g] Hp. apply in_prod_iff in Hp. split; [apply Hp|]. split; [apply Hp|]. exists (fun _ => 1%fld). cbn [fst snd]. clear Hp. intros j Hj. unfold lookup_verifier_evals, a, s.
    destruct j as [|[|[|]]]; try lia.
    + change (prev_row 3 0) with 2. cbn [cell nth first_row last_row blind_row Nat.eqb Nat.ltb Nat.leb]. apply (five F13); ring.
    + change (prev_row 3 1) with 0. cbn [cell nth first_row last_row blind_row Nat.eqb Nat.ltb Nat.leb]. apply (five F13); ring.
    + change (prev_row 3 2) with 1. cbn [cell nth first_row last_row blind_row Nat.eqb Nat.ltb Nat.leb]. apply (five F13); ring.
  - rewrite prod_length. unfold all13. rewrite map_length, seq_length. lia.
Qed.

(** ** C107: permutation completeness. When the assignment satisfies all copy constraints (between usable rows) and the challenges hit no zero, the prover's grand products exist, one per chunk of columns, the last one ends in 1,
    and every expression of the verifier vanishes on every row of the domain. *)
Theorem C107_permutation_completeness : forall (K : fld) (g omega : K) (T s k cols bf len : nat) (pairs : list (label * label)) (threads : Z) (rnd : nat -> K) (beta gamma : K) (values : list (list K)),
  let n := 2 ^ k in let u := n - (bf + 1) in
  Nat.Odd T -> k <= s -> primitive_root g (T * 2 ^ s) -> primitive_root omega n -> 0 < cols <= T ->
  bf + 1 < n -> 0 < len -> (0 < threads)%Z -> (2 * Z.of_nat n + threads < 2 ^ 64)%Z ->
  Forall (fun p => in_grid cols u (fst p) /\ in_grid cols u (snd p)) pairs ->
  length values = cols -> Forall (fun col => length col = n) values ->
  (forall a b, In (a, b) pairs -> tget values a = tget values b) ->
  let delta := get_delta g s in
  (forall c j, c < cols -> j < u -> (cell2 values c j + beta * (delta ^ c * omega ^ j) + gamma <> 0)%fld) ->
  exists xs st perms zs,
    merge_all (create cols n) pairs = Some (xs, st) /\
    generate_permutations (unpermuted_table delta omega cols n) st cols n = Some perms /\
    create_permutation_products threads n bf rnd beta gamma values (unpermuted_table delta omega cols n) perms cols len = Some (zs, 1%fld) /\
    length zs = (cols + len - 1) / len /\ Forall (fun z => length z = n) zs /\
    forall j, j < n ->
      Forall (fun e => e = 0%fld)
        (permutation_verifier_evals (first_row j) (last_row u j) (blind_row u j) delta (omega ^ j)%fld beta gamma len
           (row_of zs j) (row_of zs (next_row n j)) (row_of zs ((j + u) mod n)) (row_of values j) (row_of perms j)).
Proof. exact (fun K => permutation_complete K). Qed.
Print Assumptions C107_permutation_completeness.

(** Over F97: 96 = 3 * 2^5, g = 5, ω = 22 of order 4; two columns of four rows, two usable, the cells (0, 0), (1, 1) tied together, and (0, 1), (1, 0); one column per chunk. *)
Definition m97 (n : Z) : F97 := mkz 97 (prime_check_sound 97 eq_refl) n.
Definition pairs97 : list (label * label) := [((0, 0), (1, 1)); ((0, 1), (1, 0))].
Definition values97 : list (list F97) := [[m97 7; m97 11; m97 1; m97 2]; [m97 11; m97 7; m97 3; m97 4]].
Definition nonzero97 (p : F97 * F97) : bool :=
  forallb (fun c => forallb (fun j => negb (feqb (cell2 values97 c j + fst p * (get_delta (m97 5) 5 ^ c * m97 22 ^ j) + snd p) 0)%fld) [0; 1]) [0; 1].
Lemma roots97 : primitive_root (m97 5) (3 * 2 ^ 5) /\ primitive_root (m97 22) (2 ^ 2).
Proof.
  split; (split; [apply zp_eq; vm_compute; reflexivity|]); intros i Hi E.
  - apply (f_equal (zval 97)) in E. assert (B : forallb (fun i => negb (Z.eqb (zval 97 (m97 5 ^ i)%fld) 1)) (seq 1 95) = true) by (vm_compute; reflexivity).
    rewrite forallb_forall in B. specialize (B i). rewrite E in B. assert (false = true); [|discriminate]. apply B. apply in_seq. cbn in Hi. lia.
  - apply (f_equal (zval 97)) in E. do 4 (destruct i as [|i]; [try lia; vm_compute in E; discriminate|]). cbn in Hi. lia.
Qed.
Example C107_nonvacuous :
  Forall (fun p => in_grid 2 2 (fst p) /\ in_grid 2 2 (snd p)) pairs97 /\ (forall a b, In (a, b) pairs97 -> tget values97 a = tget values97 b) /\
  nonzero97 (m97 10, m97 20) = true /\
  match merge_all (create 2 4) pairs97 with
  | Some (_, st) =>
      match generate_permutations (unpermuted_table (get_delta (m97 5) 5) (m97 22) 2 4) st 2 4 with
      | Some perms => option_map (fun r => (map (map (zval 97)) (fst r), zval 97 (snd r))) (create_permutation_products 1 4 1 (fun i => m97 (Z.of_nat i)) (m97 10) (m97 20) values97 (unpermuted_table (get_delta (m97 5) 5) (m97 22) 2 4) perms 2 1) =
                        Some ([[1; 90; 57; 0]; [57; 90; 1; 2]], 1)%Z
      | None => False
      end
  | None => False
  end.
Proof.
  split; [repeat constructor|]. split; [intros a b [E|[E|[]]]; injection E as <- <-; reflexivity|]. split; [vm_compute; reflexivity|]. vm_compute. reflexivity.
Qed.

(** ** C108: permutation soundness on the domain, counted over the challenges: for fixed columns, if more than 3 (cols u) |X| of the pairs of challenges in X * X are accepted (with any grand products, which may depend on the pair), the assignment satisfies every copy constraint. *)
Theorem C108_permutation_soundness : forall (K : fld) (g omega : K) (T s k cols bf len : nat) (pairs : list (label * label)) (values : list (list K)) (X : list K) (P : list (K * K)),
  let n := 2 ^ k in let u := n - (bf + 1) in
  Nat.Odd T -> k <= s -> primitive_root g (T * 2 ^ s) -> primitive_root omega n -> 0 < cols <= T ->
  bf + 1 < n -> 0 < len ->
  Forall (fun p => in_grid cols u (fst p) /\ in_grid cols u (snd p)) pairs ->
  length values = cols -> Forall (fun col => length col = n) values ->
  let delta := get_delta g s in
  forall xs st perms, merge_all (create cols n) pairs = Some (xs, st) -> generate_permutations (unpermuted_table delta omega cols n) st cols n = Some perms ->
  NoDup X -> NoDup P ->
  (forall p, In p P -> In (fst p) X /\ In (snd p) X /\ permutation_accepts n u len delta omega values perms p) ->
  3 * (cols * u) * length X < length P ->
  forall a b, In (a, b) pairs -> tget values a = tget values b.
Proof. exact (fun K => permutation_counted K). Qed.
Print Assumptions C108_permutation_soundness.

(** The hypotheses are met over F97 by 20 challenges and every pair of them with no zero, 3 * 4 * 20 of which are needed. *)
Definition some97 : list F97 := map (fun i => m97 (Z.of_nat i)) (seq 0 20).
Example C108_nonvacuous : exists xs st perms,
  merge_all (create 2 (2 ^ 2)) pairs97 = Some (xs, st) /\ generate_permutations (unpermuted_table (get_delta (m97 5) 5) (m97 22) 2 (2 ^ 2)) st 2 (2 ^ 2) = Some perms /\
  NoDup some97 /\ NoDup (filter nonzero97 (list_prod some97 some97)) /\
  (forall p, In p (filter nonzero97 (list_prod some97 some97)) -> In (fst p) some97 /\ In (snd p) some97 /\ permutation_accepts (2 ^ 2) (2 ^ 2 - (1 + 1)) 1 (get_delta (m97 5) 5) (m97 22) values97 perms p) /\
  3 * (2 * 2) * length some97 < length (filter nonzero97 (list_prod some97 some97)).
Proof.
  assert (H : forall beta gamma, nonzero97 (beta, gamma) = true -> _) by exact (fun beta gamma H =>
    C107_permutation_completeness F97 (m97 5) (m97 22) 3 5 2 2 1 1 pairs97 1 (fun i => m97 (Z.of_nat i)) beta gamma values97
      (ex_intro _ 1 eq_refl) ltac:(lia) (proj1 roots97) (proj2 roots97) ltac:(lia) ltac:(cbn; lia) ltac:(lia) ltac:(lia) ltac:(cbn; lia)
      (proj1 C107_nonvacuous) eq_refl ltac:(repeat constructor) (proj1 (proj2 C107_nonvacuous))).
  cbv zeta in H.
  assert (NZ : forall b g, nonzero97 (b, g) = true -> forall c j, c < 2 -> j < 2 -> (cell2 values97 c j + b * (get_delta (m97 5) 5 ^ c * m97 22 ^ j) + g <> 0)%fld).
  { intros b g Hn c j Hc Hj E. unfold nonzero97 in Hn. rewrite forallb_forall in Hn. assert (Ic : In c [0; 1]) by (clear - Hc; destruct c as [|[|c]]; [now left|right; now left|lia]).
    assert (Ij : In j [0; 1]) by (clear - Hj; destruct j as [|[|c]]; [now left|right; now left|lia]).
    specialize (Hn c Ic). rewrite forallb_forall in Hn. specialize (Hn j Ij). cbn [fst snd] in Hn. rewrite E, feqb_refl in Hn. discriminate. }
  destruct (H (m97 10) (m97 20) (proj1 (proj2 (proj2 C107_nonvacuous))) (NZ _ _ (proj1 (proj2 (proj2 C107_nonvacuous))))) as (xs & st & perms & _ & E1 & E2 & _).
  exists xs, st, perms. split; [exact E1|]. split; [exact E2|].
  assert (N : NoDup some97) by (apply (NoDup_map_inv (zval 97)); vm_compute; repeat constructor; cbn; intuition discriminate).
  split; [exact N|]. split; [apply NoDup_filter, pairs_nodup, N|]. split.
  - intros [b g] Hp. apply filter_In in Hp. destruct Hp as [Hp Hn]. apply in_prod_iff in Hp. split; [apply Hp|]. split; [apply Hp|].
    destruct (H b g Hn (NZ b g Hn)) as (xs' & st' & perms' & zs & E1' & E2' & _ & L & _ & V).
    rewrite E1 in E1'. injection E1' as <- <-. rewrite E2 in E2'. injection E2' as <-. exists zs. split; [exact L|exact V].
  - apply Nat.ltb_lt. vm_compute. reflexivity.
Qed.
