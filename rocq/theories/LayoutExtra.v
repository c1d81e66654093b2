(** Restatements for the property files, and concrete programs. *)
From Coq Require Import ZArith Lia List Bool Sorted Permutation.
From Verif Require Import BigIntModel BufferModel LayoutModel LayoutSpec LayoutProof LayoutProof2 LayoutProof3 LayoutProof4 LayoutProof5 LayoutProof6 LayoutProof7 LayoutProof8.
Import ListNotations.
Open Scope Z_scope.

Lemma free_intervals_spec top l row fin : top < 2 ^ 32 -> well_formed l top -> 0 <= row ->
  (forall r, (exists i, In i (free_intervals l row fin) /\ inside i r) <-> inside (row, fin) r /\ ~ busy l r) /\
  (forall i, In i (free_intervals l row fin) -> exists r, inside i r) /\
  StronglySorted (fun i j => exists e, snd i = Some e /\ e < fst j) (free_intervals l row fin).
Proof.
  intros Ht Hw Hr. destruct (free_from_spec top l Ht Hw row fin Hr) as [A [B [C _]]]. unfold free_intervals. split; [|split; [|exact C]].
  - intro r. rewrite A. unfold inside, below. simpl. tauto.
  - intros i Hi. destruct (B i Hi) as [_ [_ D]]. exists (fst i). unfold inside. destruct (snd i); lia.
Qed.

Lemma first_fit_full ca top cols len start slack :
  NoDup cols -> (cols <> [] -> 0 < len) -> (forall c, In c cols -> well_formed (allocs ca c) top) ->
  0 <= start -> 0 <= top -> 0 <= len -> Z.max start top + len < 2 ^ 31 -> (forall s, slack = Some s -> 0 <= s /\ start + len + s < 2 ^ 31) ->
  match first_fit ca cols len start slack with
  | Fit r ca' => start <= r /\ (forall s, slack = Some s -> r <= start + s) /\ room ca cols len r /\ (forall r', start <= r' < r -> ~ room ca cols len r') /\
      (forall c x, In c cols -> (busy (allocs ca' c) x <-> r <= x < r + len \/ busy (allocs ca c) x)) /\ (forall c, ~ In c cols -> allocs ca' c = allocs ca c)
  | NoFit => exists s, slack = Some s /\ forall r', start <= r' <= start + s -> ~ room ca cols len r'
  | Crash => False
  end.
Proof.
  intros H1 H2 H3 H4 H5 H6 H7 H8. pose proof (first_fit_spec ca top len cols start slack H1 H2 H3 H4 H5 H6 H7 H8) as G.
  destruct (first_fit ca cols len start slack) as [r ca'| |]; [|exact G|exact G]. destruct G as [A [B [C [D U]]]]. split; [exact A|]. split; [exact B|]. split; [exact C|]. split; [exact D|]. split.
  - intros c x Hc. rewrite (proj1 (U c) Hc). rewrite busy_insert; [reflexivity|]. intros s n Hi E. simpl in E. subst s.
    assert (0 < len) by (apply H2; intro X; now rewrite X in Hc). apply (C c r Hc ltac:(lia)). exists r, n. split; [exact Hi|]. destruct (proj2 (H3 c Hc) r n Hi). lia.
  - intros c Hc. apply U. exact Hc.
Qed.

Section Plan.
  Variables (arrange : nat -> list column -> list column) (sort1 : list shape -> list shape) (sort2 : list (Z * shape) -> list (Z * shape)).
  Hypothesis Har : forall i l, Permutation (arrange i l) l.
  Hypothesis H1 : sorts_by advice_area sort1.
  Hypothesis H2 : sorts_by (fun q => Z.of_nat (sh_index (snd q))) sort2.

  Lemma strategy_spec shapes : map sh_index shapes = seq 0 (length shapes) -> Forall proper shapes -> total_rows shapes < 2 ^ 31 ->
    exists starts ca order, slot_in_biggest_advice_first arrange sort1 sort2 shapes = Some (starts, ca) /\ length starts = length shapes /\
      Permutation order (combine starts shapes) /\ StronglySorted (fun a b => advice_area b <= advice_area a) (map snd order) /\ greedy order /\
      (forall c r, busy (allocs ca c) r <-> exists s sh, In (s, sh) (combine starts shapes) /\ In c (sh_columns sh) /\ s <= r < s + sh_rows sh).
  Proof.
    intros Hi Hp Ht. destruct (biggest_spec arrange sort1 sort2 Har H1 H2 shapes Hi Hp Ht) as [order [ca [E1 [G [S [T [E2 [E3 P]]]]]]]].
    exists (map fst (sort2 order)), ca, order. split; [exact E2|]. split; [rewrite map_length, <- (map_length snd), E3; reflexivity|].
    split; [exact P|]. split; [exact S|]. split; [exact G|]. intros c r. destruct T as [_ T]. destruct (T c) as [_ T']. split.
    - intros [s [n [Ha Hr]]]. apply T' in Ha. destruct Ha as [[s' sh] [Hq [Hc X]]]. injection X as -> ->. exists s', sh. split; [eapply Permutation_in; [exact P | exact Hq]|]. auto.
    - intros [s [sh [Hq [Hc Hr]]]]. exists s, (sh_rows sh). split; [|exact Hr]. apply T'. exists (s, sh). split; [eapply Permutation_in; [symmetry; exact P | exact Hq]|]. auto.
  Qed.

  Lemma constant_cells {V} (constants : list nat) (prog : list (list (call V))) : NoDup constants ->
    Forall (fun calls => Forall (call_ok prog (length prog)) calls) prog -> total_needed prog < 2 ^ 31 ->
    exists starts ca, slot_in_biggest_advice_first arrange sort1 sort2 (measure_all prog) = Some (starts, ca) /\
      free_cells constants prog starts (constant_positions ca constants).
  Proof.
    intros Hnd Hok Htot. destruct (plan_spec arrange sort1 sort2 Har H1 H2 prog Hok Htot) as [order [ca [E [G [S [P [T [El [Hs [Hd [Hcov Hused]]]]]]]]]]].
    eexists _, ca. split; [exact E|]. destruct (positions_spec ca (total_needed prog) constants) as [Pn Pi]; [intro c; apply (proj2 T c) | lia | exact Hnd|].
    split; [exact Pn|]. intros cc r. rewrite Pi, Hcov. split.
    - intros [A [B C]]. split; [exact A|]. split; [lia|]. split; [apply Hused; lia | exact C].
    - intros [A [B [C D]]]. split; [exact A|]. split; [|exact D]. split; [exact B | now apply Hused].
  Qed.
End Plan.

(** A sort. *)
Section Sort.
  Context {A : Type} (key : A -> Z).
  Fixpoint ins (x : A) (l : list A) : list A := match l with [] => [x] | y :: r => if key x <=? key y then x :: l else y :: ins x r end.
  Definition isort (l : list A) : list A := fold_right ins [] l.
  Lemma ins_perm x l : Permutation (ins x l) (x :: l).
  Proof. induction l as [|y l IH]; simpl; [reflexivity|]. destruct (key x <=? key y); [reflexivity|]. rewrite IH. constructor. Qed.
  Lemma isort_sorts : sorts_by key isort.
  Proof.
    intro l. split.
    - induction l as [|x l IH]; simpl; [reflexivity|]. now rewrite ins_perm, IH.
    - induction l as [|x l IH]; simpl; [constructor|]. induction IH as [|y r S IH' F]; simpl; [repeat constructor|].
      destruct (key x <=? key y) eqn:E.
      + apply Z.leb_le in E. constructor; [constructor; assumption|]. constructor; [exact E|]. eapply Forall_impl; [|exact F]. simpl. lia.
      + apply Z.leb_gt in E. constructor; [exact IH'|]. eapply Permutation_Forall; [symmetry; apply ins_perm|]. constructor; [lia | exact F].
  Qed.
  (** The other order of equal keys. *)
  Definition isort_rev (l : list A) : list A := isort (rev l).
  Lemma isort_rev_sorts : sorts_by key isort_rev.
  Proof. intro l. destruct (isort_sorts (rev l)) as [P S]. split; [|exact S]. unfold isort_rev. rewrite P. symmetry. apply Permutation_rev. Qed.
End Sort.

Definition by_area := isort advice_area.
Definition by_index := isort (fun q : Z * shape => Z.of_nat (sh_index (snd q))).

(** Three regions: two share advice column 0, the third uses a fixed column; a constant, a copy and an instance. *)
Definition small_prog : list (list (call Z)) :=
  [ [EnableSelector 0 0; AssignAdvice 0 0 5; AssignAdvice 0 1 6];
    [AssignAdvice 0 0 7; AssignAdviceFromConstant 1 0 8; AssignAdvice 1 2 9; ConstrainEqual (mk_cell 1 0 (Advice 0)) (mk_cell 0 1 (Advice 0))];
    [AssignFixed 0 0 3; AssignAdviceFromInstance 0 4 2 0 11; ConstrainConstant (mk_cell 0 0 (Advice 0)) 5] ].
Lemma small_ok : Forall (fun calls => Forall (call_ok small_prog (length small_prog)) calls) small_prog.
Proof.
  assert (C1 : cell_ok small_prog 3 (mk_cell 1 0 (Advice 0))) by (split; [simpl; lia|]; eexists; split; [reflexivity | vm_compute; split; congruence]).
  assert (C2 : cell_ok small_prog 3 (mk_cell 0 1 (Advice 0))) by (split; [simpl; lia|]; eexists; split; [reflexivity | vm_compute; split; congruence]).
  assert (C3 : cell_ok small_prog 3 (mk_cell 0 0 (Advice 0))) by (split; [simpl; lia|]; eexists; split; [reflexivity | vm_compute; split; congruence]).
  apply Forall_forall. intros calls Hc. apply Forall_forall. intros k Hk. change (length small_prog) with 3%nat.
  repeat (destruct Hc as [<-|Hc]; [repeat (destruct Hk as [<-|Hk]; [cbn [call_ok]; try lia; auto|]); destruct Hk|]). destruct Hc.
Qed.
Lemma small_prefix_ok i cs : nth_error small_prog i = Some cs -> Forall (call_ok small_prog (S i)) cs.
Proof.
  assert (C1 : cell_ok small_prog 2 (mk_cell 1 0 (Advice 0))) by (split; [simpl; lia|]; eexists; split; [reflexivity | vm_compute; split; congruence]).
  assert (C2 : cell_ok small_prog 2 (mk_cell 0 1 (Advice 0))) by (split; [simpl; lia|]; eexists; split; [reflexivity | vm_compute; split; congruence]).
  assert (C3 : cell_ok small_prog 3 (mk_cell 0 0 (Advice 0))) by (split; [simpl; lia|]; eexists; split; [reflexivity | vm_compute; split; congruence]).
  destruct i as [|[|[|i]]]; simpl; intro H; [injection H as <-|injection H as <-|injection H as <-|destruct i; discriminate];
    apply Forall_forall; intros k Hk; repeat (destruct Hk as [<-|Hk]; [cbn [call_ok]; try lia; auto|]); destruct Hk.
Qed.

(** Two regions with the same advice area but different rows: the order of equal keys decides where they go. *)
Definition tied_prog : list (list (call Z)) := [ [AssignAdvice 0 0 1; AssignAdvice 1 0 1]; [AssignAdvice 0 1 2] ].
Lemma tied_ok : Forall (fun calls => Forall (call_ok tied_prog (length tied_prog)) calls) tied_prog.
Proof.
  apply Forall_forall. intros calls Hc. apply Forall_forall. intros k Hk.
  repeat (destruct Hc as [<-|Hc]; [repeat (destruct Hk as [<-|Hk]; [cbn [call_ok]; lia|]); destruct Hk|]). destruct Hc.
Qed.
Lemma tied_plans : exists sort1 sort1' sort2 : _, sorts_by advice_area sort1 /\ sorts_by advice_area sort1' /\ sorts_by (fun q => Z.of_nat (sh_index (snd q))) sort2 /\
  v1_synthesize (fun _ l => l) sort1 sort2 [] tied_prog <> v1_synthesize (fun _ l => l) sort1' sort2 [] tied_prog.
Proof.
  exists by_area, (isort_rev advice_area), by_index. split; [apply isort_sorts|]. split; [apply isort_rev_sorts|]. split; [apply isort_sorts|]. vm_compute. discriminate.
Qed.
