(** Property theorems C222-C228, C233, C234: the floor planners.
    LayoutSpec.v defines the vocabulary: [busy], [inside], [room], [apart], [earliest], [greedy] for intervals and regions;
    [regions_kept], [constants_kept], [copies_kept], [nothing_else], [disjoint], [free_cells] for what a circuit ends up with. *)
From Coq Require Import ZArith Lia List Bool Sorted Permutation.
From Verif Require Import BigIntModel LayoutModel LayoutSpec LayoutProof3 LayoutProof6 LayoutProof7 LayoutProof8 LayoutExtra.
Import ListNotations.
Open Scope Z_scope.

(** FreeIntervals: exactly the rows of the range that are not allocated, as non-empty intervals with a gap between them. *)
Theorem C222_free_intervals : forall (top : Z) (l : list (Z * Z)) (row : Z) (fin : option Z), top < 2 ^ 32 -> well_formed l top -> 0 <= row ->
  (forall r, (exists i, In i (free_intervals l row fin) /\ inside i r) <-> inside (row, fin) r /\ ~ busy l r) /\
  (forall i, In i (free_intervals l row fin) -> exists r, inside i r) /\
  StronglySorted (fun i j => exists e, snd i = Some e /\ e < fst j) (free_intervals l row fin).
Proof. exact free_intervals_spec. Qed.
Print Assumptions C222_free_intervals.

Example C222_nonvacuous : well_formed [(2, 3); (7, 1)] 8 /\ free_intervals [(2, 3); (7, 1)] 0 (Some 12) = [(0, Some 2); (5, Some 7); (8, Some 12)] /\
  free_intervals [(2, 3); (7, 1)] 3 None = [(5, Some 7); (8, None)].
Proof.
  split; [|split; reflexivity]. split; [repeat constructor|]. intros s n [H|[H|[]]]; injection H as <- <-; lia.
Qed.

(** FirstFitRegion: the least row from [start] on at which the region has room in all its columns; "no" only if there is none within
    the slack; the allocations of its columns grow by exactly the region; the CHECKs never fail. *)
Theorem C223_first_fit : forall (ca : circuit) (top : Z) (cols : list column) (len start : Z) (slack : option Z),
  NoDup cols -> (cols <> [] -> 0 < len) -> (forall c, In c cols -> well_formed (allocs ca c) top) ->
  0 <= start -> 0 <= top -> 0 <= len -> Z.max start top + len < 2 ^ 31 -> (forall s, slack = Some s -> 0 <= s /\ start + len + s < 2 ^ 31) ->
  match first_fit ca cols len start slack with
  | Fit r ca' => start <= r /\ (forall s, slack = Some s -> r <= start + s) /\ room ca cols len r /\ (forall r', start <= r' < r -> ~ room ca cols len r') /\
      (forall c x, In c cols -> (busy (allocs ca' c) x <-> r <= x < r + len \/ busy (allocs ca c) x)) /\ (forall c, ~ In c cols -> allocs ca' c = allocs ca c)
  | NoFit => exists s, slack = Some s /\ forall r', start <= r' <= start + s -> ~ room ca cols len r'
  | Crash => False
  end.
Proof. exact first_fit_full. Qed.
Print Assumptions C223_first_fit.

Example C223_nonvacuous :
  first_fit [(Advice 0, [(0, 2); (5, 1)]); (Advice 1, [(2, 1)])] [Advice 0; Advice 1] 2 0 None =
    Fit 3 [(Advice 0, [(0, 2); (3, 2); (5, 1)]); (Advice 1, [(2, 1); (3, 2)])] /\
  first_fit [(Advice 0, [(0, 2); (5, 1)]); (Advice 1, [(2, 1)])] [Advice 0; Advice 1] 2 0 (Some 2) = NoFit.
Proof. split; reflexivity. Qed.

(** SlotInBiggestAdviceFirst: in the order of falling advice area every region goes to its earliest free start; the starts come back in
    the order of the regions, and the allocations are the cells that the regions cover. *)
Theorem C224_biggest_advice_first : forall (arrange : nat -> list column -> list column) (sort1 : list shape -> list shape) (sort2 : list (Z * shape) -> list (Z * shape)),
  (forall i l, Permutation (arrange i l) l) -> sorts_by advice_area sort1 -> sorts_by (fun q => Z.of_nat (sh_index (snd q))) sort2 ->
  forall shapes, map sh_index shapes = seq 0 (length shapes) -> Forall proper shapes -> total_rows shapes < 2 ^ 31 ->
  exists starts ca order, slot_in_biggest_advice_first arrange sort1 sort2 shapes = Some (starts, ca) /\ length starts = length shapes /\
    Permutation order (combine starts shapes) /\ StronglySorted (fun a b => advice_area b <= advice_area a) (map snd order) /\ greedy order /\
    (forall c r, busy (allocs ca c) r <-> exists s sh, In (s, sh) (combine starts shapes) /\ In c (sh_columns sh) /\ s <= r < s + sh_rows sh).
Proof. exact strategy_spec. Qed.
Print Assumptions C224_biggest_advice_first.

(** Regions placed like that never share a cell. *)
Theorem C224_no_overlap : forall l : list (Z * shape), greedy l ->
  forall i j a b, nth_error l i = Some a -> nth_error l j = Some b -> i <> j -> apart a b.
Proof. exact greedy_apart. Qed.
Print Assumptions C224_no_overlap.

Example C224_nonvacuous :
  option_map fst (slot_in_biggest_advice_first (fun _ l => l) by_area by_index (measure_all small_prog)) = Some [3; 0; 0] /\
  map advice_area (measure_all small_prog) = [2; 6; 1] /\ sorts_by advice_area by_area /\ sorts_by (fun q => Z.of_nat (sh_index (snd q))) by_index.
Proof. split; [reflexivity|]. split; [reflexivity|]. split; apply isort_sorts. Qed.

(** The layout does not depend on the order in which hash sets enumerate the columns of a region, nor on how columns that compare equal
    are sorted. *)
Theorem C225_layout_independent_of_column_order : forall (V : Type) (sort1 : list shape -> list shape) (sort2 : list (Z * shape) -> list (Z * shape)),
  sorts_by advice_area sort1 -> sorts_by (fun q => Z.of_nat (sh_index (snd q))) sort2 -> forall (constants : list nat) (prog : list (list (call V))),
  Forall (fun calls => Forall (call_ok prog (length prog)) calls) prog -> total_needed prog < 2 ^ 31 ->
  forall arr1 arr2, (forall i l, Permutation (arr1 i l) l) -> (forall i l, Permutation (arr2 i l) l) ->
  v1_synthesize arr1 sort1 sort2 constants prog = v1_synthesize arr2 sort1 sort2 constants prog.
Proof. exact (fun V s1 s2 H1 H2 constants prog Hok Ht => plan_deterministic s1 s2 H1 H2 constants prog Hok Ht). Qed.
Print Assumptions C225_layout_independent_of_column_order.

Example C225_nonvacuous : Forall (fun calls => Forall (call_ok small_prog (length small_prog)) calls) small_prog /\ total_needed small_prog < 2 ^ 31 /\
  v1_synthesize (fun _ l => rev l) by_area by_index [0%nat] small_prog = v1_synthesize (fun _ l => l) by_area by_index [0%nat] small_prog /\
  v1_synthesize (fun _ l => l) by_area by_index [0%nat] small_prog <> None.
Proof. split; [exact small_ok|]. split; [reflexivity|]. split; [reflexivity | vm_compute; discriminate]. Qed.

(** The rows offered to constants: every cell of a constants column, above the end of the last region, that no region covers; once. *)
Theorem C226_cells_for_constants : forall (arrange : nat -> list column -> list column) (sort1 : list shape -> list shape) (sort2 : list (Z * shape) -> list (Z * shape)),
  (forall i l, Permutation (arrange i l) l) -> sorts_by advice_area sort1 -> sorts_by (fun q => Z.of_nat (sh_index (snd q))) sort2 ->
  forall (V : Type) (constants : list nat) (prog : list (list (call V))), NoDup constants ->
  Forall (fun calls => Forall (call_ok prog (length prog)) calls) prog -> total_needed prog < 2 ^ 31 ->
  exists starts ca, slot_in_biggest_advice_first arrange sort1 sort2 (measure_all prog) = Some (starts, ca) /\
    free_cells constants prog starts (constant_positions ca constants).
Proof. exact (fun arrange s1 s2 Ha H1 H2 V => @constant_cells arrange s1 s2 Ha H1 H2 V). Qed.
Print Assumptions C226_cells_for_constants.

Example C226_nonvacuous :
  option_map (fun x => constant_positions (snd x) [0%nat; 1%nat]) (slot_in_biggest_advice_first (fun _ l => l) by_area by_index (measure_all small_prog)) =
    Some [(0%nat, 1); (0%nat, 2); (0%nat, 3); (0%nat, 4); (1%nat, 0); (1%nat, 1); (1%nat, 2); (1%nat, 3); (1%nat, 4)].
Proof. reflexivity. Qed.

(** The V1 floor planner: no two regions overlap, the circuit holds what every region wrote, every constant is in a constants column and
    tied to its cell, every copy is passed on, and nothing else is written. It fails only if there are more constants than cells for them. *)
Theorem C227_v1_floor_planner : forall (V : Type) (sort1 : list shape -> list shape) (sort2 : list (Z * shape) -> list (Z * shape)),
  sorts_by advice_area sort1 -> sorts_by (fun q => Z.of_nat (sh_index (snd q))) sort2 -> forall (constants : list nat) (prog : list (list (call V))),
  NoDup constants -> Forall (fun calls => Forall (call_ok prog (length prog)) calls) prog -> total_needed prog < 2 ^ 31 ->
  forall arrange, (forall i l, Permutation (arrange i l) l) ->
  exists starts, (exists ca, slot_in_biggest_advice_first arrange sort1 sort2 (measure_all prog) = Some (starts, ca)) /\
    length starts = length prog /\ disjoint prog starts /\
    match v1_synthesize arrange sort1 sort2 constants prog with
    | Some (regions, events) => regions = starts /\ regions_kept prog starts events /\ constants_kept constants prog starts events /\
        copies_kept prog starts events /\ nothing_else constants prog starts events
    | None => exists free, free_cells constants prog starts free /\ (length free < count_constants 0 prog)%nat
    end.
Proof. exact (fun V s1 s2 H1 H2 constants prog Hn Hok Ht arrange => v1_spec s1 s2 H1 H2 constants prog Hn Hok Ht arrange). Qed.
Print Assumptions C227_v1_floor_planner.

Example C227_nonvacuous :
  v1_synthesize (fun _ l => l) by_area by_index [0%nat] small_prog =
    Some ([3; 0; 0],
          [EvSelector 0 3; EvAdvice 0 3 5; EvAdvice 0 4 6; EvAdvice 0 0 7; EvAdvice 1 0 8; EvAdvice 1 2 9; EvCopy (Advice 0) 0 (Advice 0) 4;
           EvFixed 0 0 3; EvAdvice 2 0 11; EvCopy (Advice 2) 0 (Instance 0) 4;
           EvFixed 0 1 8; EvCopy (Fixed 0) 1 (Advice 1) 0; EvFixed 0 2 5; EvCopy (Fixed 0) 2 (Advice 0) 3]) /\
  v1_synthesize (fun _ l => l) by_area by_index [] small_prog = None.
Proof. split; reflexivity. Qed.

(** The simple floor planner keeps the same promises; a region may refer to cells of itself and of earlier regions. *)
Theorem C228_simple_floor_planner : forall (V : Type) (constants : list nat) (prog : list (list (call V))),
  total_needed prog + Z.of_nat (count_constants 0 prog) < 2 ^ 32 -> (forall i calls, nth_error prog i = Some calls -> Forall (call_ok prog (S i)) calls) ->
  (constants <> [] \/ count_constants 0 prog = 0%nat) ->
  exists st, simple_synthesize constants prog = Some st /\ length (ch_regions st) = length prog /\ disjoint prog (ch_regions st) /\
    regions_kept prog (ch_regions st) (ch_events st) /\ constants_kept constants prog (ch_regions st) (ch_events st) /\
    copies_kept prog (ch_regions st) (ch_events st) /\ nothing_else constants prog (ch_regions st) (ch_events st).
Proof. exact (fun V => @simple_spec V). Qed.
Print Assumptions C228_simple_floor_planner.

Example C228_nonvacuous : (forall i calls, nth_error small_prog i = Some calls -> Forall (call_ok small_prog (S i)) calls) /\ count_constants 0 small_prog = 2%nat /\
  option_map ch_regions (simple_synthesize [0%nat] small_prog) = Some [0; 2; 1].
Proof. split; [exact small_prefix_ok|]. split; reflexivity. Qed.

(** The ordering of columns, "consensus-critical" by its comment, does not order two columns of the same kind. *)
Theorem C233_column_order_refuted : exists (phase : nat -> nat) (a b : column), column_eqb a b = false /\ column_ltb phase a b = false /\ column_ltb phase b a = false.
Proof. exact (ex_intro _ (fun _ => 0%nat) (ex_intro _ (Fixed 0) (ex_intro _ (Fixed 1) (conj eq_refl (conj eq_refl eq_refl))))). Qed.
Print Assumptions C233_column_order_refuted.

(** Two sorts, both correct, that lay out the same circuit differently. *)
Theorem C234_layout_independent_of_the_sort_refuted : exists sort1 sort1' sort2, sorts_by advice_area sort1 /\ sorts_by advice_area sort1' /\
  sorts_by (fun q => Z.of_nat (sh_index (snd q))) sort2 /\
  v1_synthesize (fun _ l => l) sort1 sort2 [] tied_prog <> v1_synthesize (fun _ l => l) sort1' sort2 [] tied_prog.
Proof. exact tied_plans. Qed.
Print Assumptions C234_layout_independent_of_the_sort_refuted.

Example C234_nonvacuous : Forall (fun calls => Forall (call_ok tied_prog (length tied_prog)) calls) tied_prog /\ map advice_area (measure_all tied_prog) = [2; 2].
Proof. split; [exact tied_ok | reflexivity]. Qed.
