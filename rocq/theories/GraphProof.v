(** The compiled graph computes the expressions it was built from. *)
From Coq Require Import ZArith List Arith Bool Lia Ring Field Field_theory.
From Verif Require Import Field ExprModel ExprSpec GraphModel.
Import ListNotations.
Open Scope nat_scope.

Lemma source_eqb_eq a b : source_eqb a b = true -> a = b.
Proof. destruct a, b; cbn; try discriminate; try reflexivity; try (intros H; apply Nat.eqb_eq in H; congruence); intros H; apply andb_true_iff in H as [H1 H2]; apply Nat.eqb_eq in H1, H2; congruence. Qed.
Lemma sources_eqb_eq : forall a b, sources_eqb a b = true -> a = b.
Proof. induction a as [|x a IH]; intros [|y b] H; cbn in H; try discriminate; [reflexivity|]. apply andb_true_iff in H as [H1 H2]. apply source_eqb_eq in H1. apply IH in H2. congruence. Qed.
Lemma calc_eqb_eq a b : calc_eqb a b = true -> a = b.
Proof.
  destruct a, b; cbn; try discriminate; try (intros H; apply source_eqb_eq in H; congruence);
    try (intros H; apply andb_true_iff in H as [H1 H2]; apply source_eqb_eq in H1, H2; congruence).
  intros H. apply andb_true_iff in H as [H H3]. apply andb_true_iff in H as [H1 H2]. apply source_eqb_eq in H1, H3. apply sources_eqb_eq in H2. congruence.
Qed.
Lemma find_index_some {A} (p : A -> bool) l i : find_index p l = Some i -> exists x, nth_error l i = Some x /\ p x = true.
Proof.
  revert i. induction l as [|x l IH]; intros i H; [discriminate|]. cbn in H. destruct (p x) eqn:E; [injection H as <-; exists x; auto|].
  destruct (find_index p l) as [j|]; [|discriminate]. injection H as <-. apply (IH j eq_refl).
Qed.

Lemma nth_error_prefix {A} (l m : list A) i x : nth_error l i = Some x -> nth_error (l ++ m) i = Some x.
Proof. intros H. rewrite nth_error_app1; [exact H|]. apply nth_error_Some. congruence. Qed.

(** Rotations. *)
Lemma rem_to_mod s n : (0 < n)%Z -> (if Z.rem s n <? 0 then Z.rem s n + n else Z.rem s n)%Z = (s mod n)%Z.
Proof.
  intros Hn. pose proof (Z.quot_rem' s n) as E. destruct (Z.ltb_spec (Z.rem s n) 0).
  - assert (Hb : (- n < Z.rem s n)%Z). { destruct (Z_lt_le_dec s 0); [pose proof (Z.rem_bound_neg_pos s n); lia|pose proof (Z.rem_bound_pos s n); lia]. }
    apply Z.mod_unique with (q := (Z.quot s n - 1)%Z); [left; lia|lia].
  - assert (Hb : (Z.rem s n < n)%Z). { destruct (Z_lt_le_dec s 0); [pose proof (Z.rem_bound_neg_pos s n); lia|pose proof (Z.rem_bound_pos s n); lia]. }
    apply Z.mod_unique with (q := Z.quot s n); [left; lia|lia].
Qed.
Lemma rotation_index_spec n idx rot : idx < n -> (Z.of_nat n <= 2 ^ 30)%Z -> (- 2 ^ 30 <= rot < 2 ^ 30)%Z ->
  rotation_index rot (Z.of_nat idx) 1 (Z.of_nat n) = Some (Z.of_nat (rotated_row n idx rot)).
Proof.
  intros Hi Hn Hr. unfold rotation_index. destruct (Z.leb_spec (Z.of_nat n) 0); [lia|]. rewrite Z.mul_1_r.
  unfold checked32. change (2 ^ 31)%Z with 2147483648%Z. change (2 ^ 30)%Z with 1073741824%Z in *.
  destruct ((- (2147483648) <=? rot) && (rot <? 2147483648))%Z eqn:E1; [|apply andb_false_iff in E1 as [E1|E1]; [apply Z.leb_gt in E1|apply Z.ltb_ge in E1]; lia].
  destruct ((- (2147483648) <=? Z.of_nat idx + rot) && (Z.of_nat idx + rot <? 2147483648))%Z eqn:E2; [|apply andb_false_iff in E2 as [E2|E2]; [apply Z.leb_gt in E2|apply Z.ltb_ge in E2]; lia].
  cbv zeta. rewrite rem_to_mod by lia. unfold rotated_row. rewrite Z2Nat.id; [reflexivity|]. apply Z.mod_pos_bound. lia.
Qed.
Lemma rotated_row_lt n idx rot : 0 < n -> rotated_row n idx rot < n.
Proof. intros H. unfold rotated_row. pose proof (Z.mod_pos_bound (Z.of_nat idx + rot) (Z.of_nat n)). lia. Qed.
Lemma to_int32_small idx n : idx < n -> (Z.of_nat n <= 2 ^ 30)%Z -> to_int32 (Z.of_nat idx) = Z.of_nat idx.
Proof.
  intros H Hn. unfold to_int32. change (2 ^ 31)%Z with 2147483648%Z. change (2 ^ 32)%Z with 4294967296%Z. change (2 ^ 30)%Z with 1073741824%Z in *.
  rewrite Z.mod_small by lia. lia.
Qed.
Lemma rotation_indices_spec n idx : idx < n -> (Z.of_nat n <= 2 ^ 30)%Z -> forall rots, Forall (fun r => - 2 ^ 30 <= r < 2 ^ 30)%Z rots ->
  rotation_indices rots (Z.of_nat idx) 1 (Z.of_nat n) = Some (map (fun r => Z.of_nat (rotated_row n idx r)) rots).
Proof.
  intros Hi Hn. induction rots as [|r rots IH]; intros HF; [reflexivity|]. apply Forall_cons_iff in HF as [Hr HF].
  cbn [rotation_indices]. rewrite rotation_index_spec, IH by assumption. reflexivity.
Qed.

Definition calc_sources (c : calc) : list source :=
  match c with
  | CAdd l r | CSub l r | CMul l r => [l; r]
  | CSquare v | CDouble v | CNegate v | CStore v => [v]
  | CHorner i p f => i :: f :: p
  end.
(** Only what AddExpression itself introduces. *)
Definition plain_source (s : source) : Prop := match s with SBeta | SGamma | STheta | SY | SPrev => False | _ => True end.
Definition plain_calc (c : calc) : Prop := match c with CHorner _ _ _ => False | _ => Forall plain_source (calc_sources c) end.

Section Graph.
  Variable K : fld.
  Add Field Kf_graph : (fld_theory K).
  Open Scope fld_scope.
  Variable t : table K.
  Variable n : nat.
  Hypothesis Ht : table_of t n.

  Definition source_ok (g : graph K) (k : nat) (s : source) : Prop :=
    match s with
    | SConst i => i < length (constants g)
    | SInter i => i < k
    | SFixed c r => c < length (t_fixed t) /\ r < length (rotations g)
    | SAdvice c r => c < length (t_advice t) /\ r < length (rotations g)
    | SInstance c r => c < length (t_instance t) /\ r < length (rotations g)
    | SChallenge i => i < length (t_challenges t)
    | _ => True
    end.
  Definition ext (g G : graph K) : Prop :=
    (exists c, constants G = constants g ++ c) /\ (exists r, rotations G = rotations g ++ r) /\ (exists k, calculations G = calculations g ++ k).
  Definition wf (g : graph K) : Prop :=
    num_intermediates g = length (calculations g) /\
    (exists c, constants g = [0; 1; 1 + 1] ++ c) /\
    Forall (fun r => - 2 ^ 30 <= r < 2 ^ 30)%Z (rotations g) /\
    (forall k c tg, nth_error (calculations g) k = Some (c, tg) -> tg = k /\ Forall (source_ok g k) (calc_sources c)).
  Definition plain (g : graph K) : Prop := Forall (fun ct => plain_calc (fst ct)) (calculations g).

  Lemma ext_refl g : ext g g.
  Proof. repeat split; exists []; rewrite app_nil_r; reflexivity. Qed.
  Lemma ext_trans a b c : ext a b -> ext b c -> ext a c.
  Proof. intros [[x1 H1] [[y1 I1] [z1 J1]]] [[x2 H2] [[y2 I2] [z2 J2]]]. repeat split; [exists (x1 ++ x2)|exists (y1 ++ y2)|exists (z1 ++ z2)]; rewrite app_assoc; congruence. Qed.
  Lemma source_ok_ext g G k k' s : ext g G -> k <= k' -> source_ok g k s -> source_ok G k' s.
  Proof.
    intros [[x1 H1] [[y1 I1] _]] Hk H. destruct s; cbn in *; auto; try rewrite H1; try rewrite I1; try rewrite app_length; try lia; destruct H; split; lia.
  Qed.
  Lemma ext_num g G : wf g -> wf G -> ext g G -> num_intermediates g <= num_intermediates G.
  Proof. intros [-> _] [-> _] [_ [_ [k ->]]]. rewrite app_length. lia. Qed.

  Lemma wf_empty : wf empty_graph.
  Proof. repeat split; cbn; try (exists []; reflexivity); try constructor; destruct k; discriminate. Qed.
  Lemma plain_empty : plain empty_graph. Proof. constructor. Qed.

  Variable idx : nat.
  Hypothesis Hidx : idx < n.
  Hypothesis Hn : (Z.of_nat n <= 2 ^ 30)%Z.
  Variables theta beta gamma y prev : K.
  Definition inp : inputs K := {| in_table_ := t; in_n := Z.of_nat n; in_theta := theta; in_beta := beta; in_gamma := gamma; in_y := y; in_previous := prev |}.
  Definition rows (G : graph K) : list Z := map (fun r => Z.of_nat (rotated_row n idx r)) (rotations G).
  Definition solves (G : graph K) (vals : list K) : Prop :=
    length vals = length (calculations G) /\
    forall k c tg, nth_error (calculations G) k = Some (c, tg) -> exists v, nth_error vals k = Some v /\ calculate (get G inp (rows G) vals) c = Some v.

  Lemma read_ok cols c row : Forall (fun x => length x = n) cols -> c < length cols -> row < n -> read_cell cols c (Z.of_nat row) = Some (nth row (nth c cols []) (0 : K)).
  Proof.
    intros HF Hc Hr. unfold read_cell. destruct (Z.ltb_spec (Z.of_nat row) 0); [lia|]. rewrite (nth_error_nth' cols [] Hc). rewrite Nat2Z.id.
    apply nth_error_nth'. rewrite Forall_forall in HF. rewrite (HF (nth c cols [])); [exact Hr|]. apply nth_In. exact Hc.
  Qed.

  (** AddConstant. *)
  Lemma add_constant_spec c g : wf g -> let (s, g') := add_constant c g in
    wf g' /\ ext g g' /\ source_ok g' (num_intermediates g') s /\ plain_source s /\ (plain g -> plain g') /\
    (forall G vals, ext g' G -> get G inp (rows G) vals s = Some c).
  Proof.
    intros Hw. unfold add_constant. destruct (find_index (fun x => feqb x c) (constants g)) as [i|] eqn:E.
    - apply find_index_some in E as [x [Ex E]]. apply feqb_eq in E. subst x. split; [exact Hw|]. split; [apply ext_refl|]. split; [|split; [exact I|split; [auto|]]].
      + cbn. apply nth_error_Some. congruence.
      + intros G vals [[x Hx] _]. cbn. rewrite Hx. apply nth_error_prefix. exact Ex.
    - set (g' := Build_graph _ _ _ _). assert (HE : ext g g') by (repeat split; cbn; [exists [c]|exists []|exists []]; rewrite ?app_nil_r; reflexivity).
      split; [|split; [exact HE|split; [|split; [exact I|split; [auto|]]]]].
      + destruct Hw as [W1 [[x W2] [W3 W4]]]. split; [exact W1|]. split; [exists (x ++ [c]); cbn; rewrite W2; cbn; reflexivity|]. split; [exact W3|].
        intros k cc tg Hk. destruct (W4 k cc tg Hk) as [-> HF]. split; [reflexivity|]. eapply Forall_impl; [|exact HF]. intros s. apply (source_ok_ext g g' k k s HE (Nat.le_refl k)).
      + cbn. rewrite app_length. cbn. lia.
      + intros G vals [[x Hx] _]. cbn. rewrite Hx. cbn. apply nth_error_prefix. rewrite nth_error_app2, Nat.sub_diag by lia. reflexivity.
  Qed.

  (** AddCalculation. *)
  Lemma add_calculation_spec c g : wf g -> Forall (source_ok g (num_intermediates g)) (calc_sources c) -> let (s, g') := add_calculation c g in
    wf g' /\ ext g g' /\ source_ok g' (num_intermediates g') s /\ plain_source s /\ (plain_calc c -> plain g -> plain g') /\
    (forall G vals, ext g' G -> solves G vals -> exists v, get G inp (rows G) vals s = Some v /\ calculate (get G inp (rows G) vals) c = Some v).
  Proof.
    intros Hw Hc. unfold add_calculation. destruct (find (fun info => calc_eqb (fst info) c) (calculations g)) as [[c' tg]|] eqn:E.
    - apply find_some in E as [Hin E]. cbn in E. apply calc_eqb_eq in E. subst c'. apply In_nth_error in Hin as [k Hk].
      destruct Hw as [W1 [W2 [W3 W4]]]. destruct (W4 k c tg Hk) as [-> HF]. split; [repeat split; auto; eapply W4; eassumption|]. split; [apply ext_refl|]. split; [|split; [exact I|split; [auto|]]].
      + cbn. rewrite W1. apply nth_error_Some. congruence.
      + intros G vals [_ [_ [x Hx]]] [HL HS]. destruct (HS k c k) as [v [Hv Hcv]]; [rewrite Hx; apply nth_error_prefix; exact Hk|]. exists v. split; [exact Hv|exact Hcv].
    - set (g' := Build_graph _ _ _ _). assert (HE : ext g g') by (repeat split; cbn; [exists []|exists []|exists [(c, num_intermediates g)]]; rewrite ?app_nil_r; reflexivity).
      split; [|split; [exact HE|split; [|split; [exact I|split]]]].
      + destruct Hw as [W1 [W2 [W3 W4]]]. split; [cbn; rewrite app_length; cbn; lia|]. split; [exact W2|]. split; [exact W3|].
        intros k cc tg Hk. cbn in Hk. destruct (Nat.lt_ge_cases k (length (calculations g))) as [L|L].
        * rewrite nth_error_app1 in Hk by exact L. destruct (W4 k cc tg Hk) as [-> HF]. split; [reflexivity|]. eapply Forall_impl; [|exact HF]. intros s. apply (source_ok_ext g g' k k s HE (Nat.le_refl k)).
        * rewrite nth_error_app2 in Hk by exact L. destruct (k - length (calculations g))%nat as [|m] eqn:Em; [|destruct m; discriminate].
          cbn in Hk. injection Hk as <- <-. split; [lia|]. eapply Forall_impl; [|exact Hc]. intros s. apply (source_ok_ext g g'); [exact HE|lia].
      + cbn. lia.
      + intros Hp HP. unfold plain. cbn. apply Forall_app. split; [exact HP|]. constructor; [exact Hp|constructor].
      + intros G vals [_ [_ [x Hx]]] [HL HS]. cbn in Hx. destruct (HS (length (calculations g)) c (num_intermediates g)) as [v [Hv Hcv]].
        { rewrite Hx. apply nth_error_prefix. rewrite nth_error_app2, Nat.sub_diag by lia. reflexivity. }
        exists v. split; [|exact Hcv]. cbn. destruct Hw as [-> _]. exact Hv.
  Qed.

  (** AddRotation. *)
  Lemma add_rotation_spec rot g : wf g -> (- 2 ^ 30 <= rot < 2 ^ 30)%Z -> let (r, g') := add_rotation rot g in
    wf g' /\ ext g g' /\ num_intermediates g' = num_intermediates g /\ (plain g -> plain g') /\ nth_error (rotations g') r = Some rot.
  Proof.
    intros Hw Hr. unfold add_rotation. destruct (find_index (Z.eqb rot) (rotations g)) as [i|] eqn:E.
    - apply find_index_some in E as [x [Ex E]]. apply Z.eqb_eq in E. subst x. split; [exact Hw|]. split; [apply ext_refl|]. auto.
    - set (g' := Build_graph _ _ _ _). assert (HE : ext g g') by (repeat split; cbn; [exists []|exists [rot]|exists []]; rewrite ?app_nil_r; reflexivity).
      split; [|split; [exact HE|split; [reflexivity|split; [auto|]]]].
      + destruct Hw as [W1 [W2 [W3 W4]]]. split; [exact W1|]. split; [exact W2|]. split; [cbn; apply Forall_app; split; [exact W3|constructor; [exact Hr|constructor]]|].
        intros k cc tg Hk. destruct (W4 k cc tg Hk) as [-> HF]. split; [reflexivity|]. eapply Forall_impl; [|exact HF]. intros s. apply (source_ok_ext g g' k k s HE (Nat.le_refl k)).
      + cbn. rewrite nth_error_app2, Nat.sub_diag by lia. reflexivity.
  Qed.

  Definition computes (g : graph K) (r : option (source * graph K)) (val : K) : Prop :=
    exists s g', r = Some (s, g') /\ wf g' /\ ext g g' /\ source_ok g' (num_intermediates g') s /\ plain_source s /\ (plain g -> plain g') /\
      forall G vals, ext g' G -> solves G vals -> get G inp (rows G) vals s = Some val.

  Lemma store_computes mk rot g val : wf g -> (- 2 ^ 30 <= rot < 2 ^ 30)%Z ->
    (forall g' r, r < length (rotations g') -> source_ok g' (num_intermediates g') (mk r)) -> (forall r, plain_source (mk r)) ->
    (forall G vals r, nth_error (rotations G) r = Some rot -> get G inp (rows G) vals (mk r) = Some val) ->
    computes g (Some (add_store mk rot g)) val.
  Proof.
    intros Hw Hr Hok Hpl Hval. unfold add_store. pose proof (add_rotation_spec rot g Hw Hr) as H1. destruct (add_rotation rot g) as [r g1]. destruct H1 as [W1 [E1 [N1 [P1 R1]]]].
    pose proof (add_calculation_spec (CStore (mk r)) g1 W1) as H2. destruct (add_calculation (CStore (mk r)) g1) as [s g2].
    destruct H2 as [W2 [E2 [S2 [PS [P2 V2]]]]].
    { constructor; [|constructor]. apply Hok. apply nth_error_Some. congruence. }
    exists s, g2. split; [reflexivity|]. split; [exact W2|]. split; [eapply ext_trans; eassumption|]. split; [exact S2|]. split; [exact PS|]. split.
    - intros Hp. apply P2; [|apply P1; exact Hp]. cbn. constructor; [apply Hpl|constructor].
    - intros G vals HG HS. destruct (V2 G vals HG HS) as [v [Hv Hcv]]. rewrite Hv. f_equal. cbn in Hcv.
      destruct HG as [_ [[x Hx] _]]. destruct E2 as [_ [[z Hz] _]].
      rewrite (Hval G vals r) in Hcv; [congruence|]. rewrite Hx, Hz. apply nth_error_prefix, nth_error_prefix. exact R1.
  Qed.

  Lemma const_value G vals g' s k : wf g' -> ext g' G -> is_const k s = true -> k < 3 -> get G inp (rows G) vals s = Some (nth k [0; 1; 1 + 1] 0).
  Proof.
    intros [_ [[x Hx] _]] [[z Hz] _] E Hk. destruct s; try discriminate. cbn in E. apply Nat.eqb_eq in E. subst i. cbn [get]. rewrite Hz, Hx.
    destruct k as [|[|[|k]]]; try reflexivity. lia.
  Qed.

  Local Ltac calc_step H c g W :=
    let H2 := fresh "H2" in pose proof (add_calculation_spec c g W) as H2; destruct (add_calculation c g) as [? ?]; destruct H2 as [? [? [? [? [? H]]]]].

  (** A calculation whose value is known once those of its sources are. *)
  Lemma calc_computes c g0 g val : wf g -> ext g0 g -> (plain g0 -> plain g) -> Forall (source_ok g (num_intermediates g)) (calc_sources c) -> plain_calc c ->
    (forall G vals, ext g G -> solves G vals -> calculate (get G inp (rows G) vals) c = Some val) ->
    computes g0 (Some (add_calculation c g)) val.
  Proof.
    intros Hw H0 HP Hc Hpc Hv. pose proof (add_calculation_spec c g Hw Hc) as H2. destruct (add_calculation c g) as [s g2].
    destruct H2 as [W2 [E2 [S2 [PS [P2 V2]]]]]. exists s, g2. split; [reflexivity|]. split; [exact W2|]. split; [eapply ext_trans; eassumption|]. split; [exact S2|]. split; [exact PS|]. split; [auto|].
    intros G vals HG HS. destruct (V2 G vals HG HS) as [v [-> Hcv]]. rewrite (Hv G vals) in Hcv; [symmetry; exact Hcv| |exact HS]. eapply ext_trans; eassumption.
  Qed.

  Definition claim (e : expr K) : Prop := forall g, wf g -> in_table t n e -> computes g (add_expression e g) (value (row_leaves t n idx) e).

  Lemma claim_leaf_fixed c r : claim (EFixed c r).
  Proof.
    intros g Hw [Hc Hr]. cbn [add_expression value v_fixed row_leaves]. apply store_computes; auto.
    - intros g' i Hi. cbn. auto.
    - intros i. exact I.
    - intros G vals i Hi. cbn [get]. unfold rows. rewrite (map_nth_error _ i _ Hi). apply read_ok; [apply Ht|exact Hc|apply rotated_row_lt; lia].
  Qed.
  Lemma claim_leaf_advice c r : claim (EAdvice c r).
  Proof.
    intros g Hw [Hc Hr]. cbn [add_expression value v_advice row_leaves]. apply store_computes; auto.
    - intros g' i Hi. cbn. auto.
    - intros i. exact I.
    - intros G vals i Hi. cbn [get]. unfold rows. rewrite (map_nth_error _ i _ Hi). apply read_ok; [apply Ht|exact Hc|apply rotated_row_lt; lia].
  Qed.
  Lemma claim_leaf_instance c r : claim (EInstance c r).
  Proof.
    intros g Hw [Hc Hr]. cbn [add_expression value v_instance row_leaves]. apply store_computes; auto.
    - intros g' i Hi. cbn. auto.
    - intros i. exact I.
    - intros G vals i Hi. cbn [get]. unfold rows. rewrite (map_nth_error _ i _ Hi). apply read_ok; [apply Ht|exact Hc|apply rotated_row_lt; lia].
  Qed.

  Lemma constant_computes c g val : wf g -> c = val -> computes g (Some (add_constant c g)) val.
  Proof.
    intros Hw <-. pose proof (add_constant_spec c g Hw) as H. destruct (add_constant c g) as [s g']. destruct H as [W [E [S [P [PP V]]]]].
    exists s, g'. repeat (split; [assumption || reflexivity|]). intros G vals HG _. apply V. exact HG.
  Qed.

  Theorem claim_all e : claim e /\ (forall e', e = ENeg e' -> claim e').
  Proof.
    induction e as [c|i sm|c r|c r|c r|i|e [IH _]|l [IHl _] r [IHr IHr']|l [IHl _] r [IHr _]|e [IH _] sc]; (split; [|first [intros e' X; discriminate X | intros e' X; injection X as <-; exact IH]]).
    - intros g Hw _. apply constant_computes; [exact Hw|reflexivity].
    - intros g Hw [].
    - apply claim_leaf_fixed.
    - apply claim_leaf_advice.
    - apply claim_leaf_instance.
    - intros g Hw Hi. cbn [add_expression]. cbn in Hi. apply (calc_computes _ g g); auto; [apply ext_refl| | |].
      + constructor; [exact Hi|constructor].
      + cbn. constructor; [exact I|constructor].
      + intros G vals _ _. cbn. apply nth_error_nth'. exact Hi.
    - intros g Hw Hi. cbn [in_table value] in *.
      assert (Gen : computes g (match add_expression e g with None => None | Some (s, g1) => if is_const 0 s then Some (s, g1) else Some (add_calculation (CNegate s) g1) end) (- value (row_leaves t n idx) e)).
      { destruct (IH g Hw Hi) as [s [g1 [-> [W [E [S [P [PP V]]]]]]]]. destruct (is_const 0 s) eqn:Ec.
        - exists s, g1. repeat (split; [assumption || reflexivity|]). intros G vals HG HS. pose proof (V G vals HG HS) as HV.
          rewrite (const_value G vals g1 s 0 W HG Ec ltac:(lia)) in *. cbn [nth] in *. injection HV as <-. f_equal. ring.
        - apply (calc_computes _ g g1); auto; [constructor; [exact S|constructor]|cbn; constructor; [exact P|constructor]|].
          intros G vals HG HS. cbn. rewrite (V G vals HG HS). reflexivity. }
      destruct e; try exact Gen. cbn [add_expression value]. apply constant_computes; [exact Hw|reflexivity].
    - intros g Hw [Hil Hir]. cbn [value]. cbn [add_expression].
      destruct (IHl g Hw Hil) as [sl [g1 [-> [W1 [E1 [S1 [P1 [PP1 V1]]]]]]]].
      assert (Gen : computes g (match add_expression r g1 with None => None | Some (sr, g2) =>
           if is_const 0 sl then Some (sr, g2) else if is_const 0 sr then Some (sl, g2) else if source_leb sl sr then Some (add_calculation (CAdd sl sr) g2) else Some (add_calculation (CAdd sr sl) g2) end)
           (value (row_leaves t n idx) l + value (row_leaves t n idx) r)).
      { destruct (IHr g1 W1 Hir) as [sr [g2 [-> [W2 [E2 [S2 [P2 [PP2 V2]]]]]]]].
        assert (S1' : source_ok g2 (num_intermediates g2) sl) by (exact (source_ok_ext g1 g2 _ _ _ E2 (ext_num g1 g2 W1 W2 E2) S1)).
        assert (V1' : forall G vals, ext g2 G -> solves G vals -> get G inp (rows G) vals sl = Some (value (row_leaves t n idx) l)) by (intros G vals HG HS; apply V1; [eapply ext_trans; eassumption|exact HS]).
        assert (E12 : ext g g2) by (eapply ext_trans; eassumption).
        destruct (is_const 0 sl) eqn:Ec; [|destruct (is_const 0 sr) eqn:Ec'].
        - exists sr, g2. split; [reflexivity|]. split; [exact W2|]. split; [exact E12|]. split; [exact S2|]. split; [exact P2|]. split; [auto|].
          intros G vals HG HS. rewrite (V2 G vals HG HS). f_equal. pose proof (V1' G vals HG HS) as HV. rewrite (const_value G vals g2 sl 0 W2 HG Ec ltac:(lia)) in HV. cbn [nth] in HV. injection HV as <-. ring.
        - exists sl, g2. split; [reflexivity|]. split; [exact W2|]. split; [exact E12|]. split; [exact S1'|]. split; [exact P1|]. split; [auto|].
          intros G vals HG HS. rewrite (V1' G vals HG HS). f_equal. pose proof (V2 G vals HG HS) as HV. rewrite (const_value G vals g2 sr 0 W2 HG Ec' ltac:(lia)) in HV. cbn [nth] in HV. injection HV as <-. ring.
        - destruct (source_leb sl sr); apply (calc_computes _ g g2); auto; try (constructor; [assumption|constructor; [assumption|constructor]]); intros G vals HG HS; cbn; rewrite (V1' G vals HG HS), (V2 G vals HG HS); f_equal; ring. }
      destruct r as [c|j sm|c rr|c rr|c rr|j|r'|rl rr|rl rr|r' sc]; try exact Gen. clear Gen.
      cbn [in_table] in Hir. cbn [value].
      destruct (IHr' r' eq_refl g1 W1 Hir) as [sr [g2 [-> [W2 [E2 [S2 [P2 [PP2 V2]]]]]]]].
      assert (S1' : source_ok g2 (num_intermediates g2) sl) by (exact (source_ok_ext g1 g2 _ _ _ E2 (ext_num g1 g2 W1 W2 E2) S1)).
      assert (V1' : forall G vals, ext g2 G -> solves G vals -> get G inp (rows G) vals sl = Some (value (row_leaves t n idx) l)) by (intros G vals HG HS; apply V1; [eapply ext_trans; eassumption|exact HS]).
      assert (E12 : ext g g2) by (eapply ext_trans; eassumption).
      destruct (is_const 0 sl) eqn:Ec; [|destruct (is_const 0 sr) eqn:Ec'].
      + apply (calc_computes _ g g2); auto; [constructor; [exact S2|constructor]|cbn; constructor; [exact P2|constructor]|].
        intros G vals HG HS. cbn. rewrite (V2 G vals HG HS). f_equal. pose proof (V1' G vals HG HS) as HV. rewrite (const_value G vals g2 sl 0 W2 HG Ec ltac:(lia)) in HV. cbn [nth] in HV. injection HV as <-. ring.
      + exists sl, g2. split; [reflexivity|]. split; [exact W2|]. split; [exact E12|]. split; [exact S1'|]. split; [exact P1|]. split; [auto|].
        intros G vals HG HS. rewrite (V1' G vals HG HS). f_equal. pose proof (V2 G vals HG HS) as HV. rewrite (const_value G vals g2 sr 0 W2 HG Ec' ltac:(lia)) in HV. cbn [nth] in HV. injection HV as <-. ring.
      + apply (calc_computes _ g g2); auto; try (constructor; [assumption|constructor; [assumption|constructor]]).
        intros G vals HG HS. cbn. rewrite (V1' G vals HG HS), (V2 G vals HG HS). f_equal. ring.
    - intros g Hw [Hil Hir]. cbn [value]. cbn [add_expression].
      destruct (IHl g Hw Hil) as [sl [g1 [-> [W1 [E1 [S1 [P1 [PP1 V1]]]]]]]].
      destruct (IHr g1 W1 Hir) as [sr [g2 [-> [W2 [E2 [S2 [P2 [PP2 V2]]]]]]]].
      assert (S1' : source_ok g2 (num_intermediates g2) sl) by (exact (source_ok_ext g1 g2 _ _ _ E2 (ext_num g1 g2 W1 W2 E2) S1)).
      assert (V1' : forall G vals, ext g2 G -> solves G vals -> get G inp (rows G) vals sl = Some (value (row_leaves t n idx) l)) by (intros G vals HG HS; apply V1; [eapply ext_trans; eassumption|exact HS]).
      assert (E12 : ext g g2) by (eapply ext_trans; eassumption).
      assert (CL : forall k, k < 3 -> is_const k sl = true -> forall G vals, ext g2 G -> solves G vals -> value (row_leaves t n idx) l = nth k [0; 1; 1 + 1] 0).
      { intros k Hk Hc G vals HG HS. pose proof (V1' G vals HG HS) as HV. rewrite (const_value G vals g2 sl k W2 HG Hc Hk) in HV. congruence. }
      assert (CR : forall k, k < 3 -> is_const k sr = true -> forall G vals, ext g2 G -> solves G vals -> value (row_leaves t n idx) r = nth k [0; 1; 1 + 1] 0).
      { intros k Hk Hc G vals HG HS. pose proof (V2 G vals HG HS) as HV. rewrite (const_value G vals g2 sr k W2 HG Hc Hk) in HV. congruence. }
      destruct (is_const 0 sl || is_const 0 sr) eqn:Z0.
      { exists (SConst 0), g2. split; [reflexivity|]. split; [exact W2|]. split; [exact E12|]. split; [destruct W2 as [_ [[x Hx] _]]; cbn; rewrite Hx; cbn; lia|]. split; [exact I|]. split; [auto|].
        intros G vals HG HS. rewrite (const_value G vals g2 (SConst 0) 0 W2 HG eq_refl ltac:(lia)). cbn [nth]. f_equal.
        apply orb_true_iff in Z0 as [Z0|Z0]; [rewrite (CL 0%nat ltac:(lia) Z0 G vals HG HS)|rewrite (CR 0%nat ltac:(lia) Z0 G vals HG HS)]; cbn [nth]; ring. }
      destruct (is_const 1 sl) eqn:L1.
      { exists sr, g2. split; [reflexivity|]. split; [exact W2|]. split; [exact E12|]. split; [exact S2|]. split; [exact P2|]. split; [auto|].
        intros G vals HG HS. rewrite (V2 G vals HG HS). f_equal. rewrite (CL 1%nat ltac:(lia) L1 G vals HG HS). cbn [nth]. ring. }
      destruct (is_const 1 sr) eqn:R1.
      { exists sl, g2. split; [reflexivity|]. split; [exact W2|]. split; [exact E12|]. split; [exact S1'|]. split; [exact P1|]. split; [auto|].
        intros G vals HG HS. rewrite (V1' G vals HG HS). f_equal. rewrite (CR 1%nat ltac:(lia) R1 G vals HG HS). cbn [nth]. ring. }
      destruct (is_const 2 sl) eqn:L2.
      { apply (calc_computes _ g g2); auto; [constructor; [exact S2|constructor]|cbn; constructor; [exact P2|constructor]|].
        intros G vals HG HS. cbn. rewrite (V2 G vals HG HS). f_equal. rewrite (CL 2%nat ltac:(lia) L2 G vals HG HS). cbn [nth]. ring. }
      destruct (is_const 2 sr) eqn:R2.
      { apply (calc_computes _ g g2); auto; [constructor; [exact S1'|constructor]|cbn; constructor; [exact P1|constructor]|].
        intros G vals HG HS. cbn. rewrite (V1' G vals HG HS). f_equal. rewrite (CR 2%nat ltac:(lia) R2 G vals HG HS). cbn [nth]. ring. }
      destruct (source_eqb sl sr) eqn:Eq.
      { apply source_eqb_eq in Eq. subst sr. apply (calc_computes _ g g2); auto; [constructor; [exact S1'|constructor]|cbn; constructor; [exact P1|constructor]|].
        intros G vals HG HS. cbn. rewrite (V1' G vals HG HS). f_equal. pose proof (V1' G vals HG HS) as A. rewrite (V2 G vals HG HS) in A. injection A as ->. reflexivity. }
      destruct (source_leb sl sr); apply (calc_computes _ g g2); auto; try (constructor; [assumption|constructor; [assumption|constructor]]); intros G vals HG HS; cbn; rewrite (V1' G vals HG HS), (V2 G vals HG HS); f_equal; ring.
    - intros g Hw Hi. cbn [in_table value] in *. cbn [add_expression].
      destruct (feqb sc 0) eqn:Z0.
      { apply feqb_eq in Z0. subst sc. exists (SConst 0), g. split; [reflexivity|]. split; [exact Hw|]. split; [apply ext_refl|]. split; [destruct Hw as [_ [[x Hx] _]]; cbn; rewrite Hx; cbn; lia|]. split; [exact I|]. split; [auto|].
        intros G vals HG HS. rewrite (const_value G vals g (SConst 0) 0 Hw HG eq_refl ltac:(lia)). cbn [nth]. f_equal. ring. }
      destruct (feqb sc 1) eqn:Z1.
      { apply feqb_eq in Z1. subst sc. destruct (IH g Hw Hi) as [s [g1 [-> [W [E [S [P [PP V]]]]]]]]. exists s, g1. repeat (split; [assumption || reflexivity|]).
        intros G vals HG HS. rewrite (V G vals HG HS). f_equal. ring. }
      pose proof (add_constant_spec sc g Hw) as H1. destruct (add_constant sc g) as [s1 g1]. destruct H1 as [W1 [E1 [S1 [P1 [PP1 V1]]]]].
      destruct (IH g1 W1 Hi) as [s2 [g2 [-> [W2 [E2 [S2 [P2 [PP2 V2]]]]]]]].
      apply (calc_computes _ g g2); auto; [eapply ext_trans; eassumption| | |].
      + constructor; [exact S2|]. constructor; [|constructor]. exact (source_ok_ext g1 g2 _ _ _ E2 (ext_num g1 g2 W1 W2 E2) S1).
      + cbn. constructor; [exact P2|constructor; [exact P1|constructor]].
      + intros G vals HG HS. cbn. rewrite (V2 G vals HG HS), (V1 G vals); [reflexivity|]. eapply ext_trans; eassumption.
  Qed.

  Lemma add_expressions_spec : forall es g, wf g -> Forall (in_table t n) es ->
    exists ss g', add_expressions es g = Some (ss, g') /\ wf g' /\ ext g g' /\ Forall (source_ok g' (num_intermediates g')) ss /\ Forall plain_source ss /\ (plain g -> plain g') /\
      forall G vals, ext g' G -> solves G vals -> Forall2 (fun s e => get G inp (rows G) vals s = Some (value (row_leaves t n idx) e)) ss es.
  Proof.
    induction es as [|e es IH]; intros g Hw HF.
    - exists [], g. split; [reflexivity|]. split; [exact Hw|]. split; [apply ext_refl|]. repeat (split; [constructor || auto|]). constructor.
    - apply Forall_cons_iff in HF as [He HF]. destruct (proj1 (claim_all e) g Hw He) as [s [g1 [E1 [W1 [X1 [S1 [P1 [PP1 V1]]]]]]]].
      destruct (IH g1 W1 HF) as [ss [g2 [E2 [W2 [X2 [S2 [P2 [PP2 V2]]]]]]]]. cbn [add_expressions]. rewrite E1, E2. exists (s :: ss), g2.
      split; [reflexivity|]. split; [exact W2|]. split; [eapply ext_trans; eassumption|]. split; [constructor; [|exact S2]|split; [constructor; assumption|split; [auto|]]].
      + exact (source_ok_ext g1 g2 _ _ _ X2 (ext_num g1 g2 W1 W2 X2) S1).
      + intros G vals HG HS. constructor; [apply V1; [eapply ext_trans; eassumption|exact HS]|apply V2; assumption].
  Qed.

  (** Running a graph. *)
  Definition agree (k : nat) (a b : list K) : Prop := forall i, i < k -> nth_error a i = nth_error b i.
  Lemma get_agree G k a b s : source_ok G k s -> agree k a b -> get G inp (rows G) a s = get G inp (rows G) b s.
  Proof. intros Hs Ha. destruct s; cbn in *; auto. Qed.
  Lemma horner_agree G k a b f : agree k a b -> forall parts acc, Forall (source_ok G k) parts -> horner (get G inp (rows G) a) f acc parts = horner (get G inp (rows G) b) f acc parts.
  Proof.
    intros Ha. induction parts as [|p r IH]; intros acc HF; [reflexivity|]. apply Forall_cons_iff in HF as [Hp HF]. cbn. rewrite (get_agree G k a b p Hp Ha). destruct (get G inp (rows G) b p); [apply IH; exact HF|reflexivity].
  Qed.
  Lemma calculate_agree G k a b c : Forall (source_ok G k) (calc_sources c) -> agree k a b -> calculate (get G inp (rows G) a) c = calculate (get G inp (rows G) b) c.
  Proof.
    intros HF Ha. destruct c; cbn [calc_sources] in HF; cbn [calculate];
      repeat match goal with H : Forall _ (_ :: _) |- _ => apply Forall_cons_iff in H as [? ?] end;
      repeat match goal with H : source_ok G k ?s |- _ => rewrite (get_agree G k a b s H Ha); clear H end; try reflexivity.
    destruct (get G inp (rows G) b factor); [|reflexivity]. destruct (get G inp (rows G) b init); [|reflexivity]. apply (horner_agree G k); assumption.
  Qed.
  Lemma get_total G k vals s : source_ok G k s -> k <= length vals -> exists v, get G inp (rows G) vals s = Some v.
  Proof.
    intros Hs Hk. destruct s; cbn [source_ok] in Hs; cbn [get]; try (eexists; reflexivity).
    - destruct (nth_error (constants G) i) eqn:E; [eexists; reflexivity|]. apply nth_error_None in E. lia.
    - destruct (nth_error vals i) eqn:E; [eexists; reflexivity|]. apply nth_error_None in E. lia.
    - destruct Hs as [Hc Hr]. unfold rows. rewrite (map_nth_error _ r _ (nth_error_nth' (rotations G) 0%Z Hr)). cbn [inp in_table_]. rewrite read_ok; [eexists; reflexivity|apply Ht|exact Hc|apply rotated_row_lt; lia].
    - destruct Hs as [Hc Hr]. unfold rows. rewrite (map_nth_error _ r _ (nth_error_nth' (rotations G) 0%Z Hr)). cbn [inp in_table_]. rewrite read_ok; [eexists; reflexivity|apply Ht|exact Hc|apply rotated_row_lt; lia].
    - destruct Hs as [Hc Hr]. unfold rows. rewrite (map_nth_error _ r _ (nth_error_nth' (rotations G) 0%Z Hr)). cbn [inp in_table_]. rewrite read_ok; [eexists; reflexivity|apply Ht|exact Hc|apply rotated_row_lt; lia].
    - cbn [inp in_table_]. destruct (nth_error (t_challenges t) i) eqn:E; [eexists; reflexivity|]. apply nth_error_None in E. lia.
  Qed.
  Lemma horner_total G k vals f : k <= length vals -> forall parts acc, Forall (source_ok G k) parts -> exists v, horner (get G inp (rows G) vals) f acc parts = Some v.
  Proof.
    intros Hk. induction parts as [|p r IH]; intros acc HF; [eexists; reflexivity|]. apply Forall_cons_iff in HF as [Hp HF]. cbn. destruct (get_total G k vals p Hp Hk) as [v ->]. apply IH. exact HF.
  Qed.
  Lemma calculate_total G k vals c : Forall (source_ok G k) (calc_sources c) -> k <= length vals -> exists v, calculate (get G inp (rows G) vals) c = Some v.
  Proof.
    intros HF Hk. destruct c; cbn [calc_sources] in HF; cbn [calculate];
      repeat match goal with H : Forall _ (_ :: _) |- _ => apply Forall_cons_iff in H as [? ?] end;
      repeat match goal with H : source_ok G k ?s |- _ => destruct (get_total G k vals s H Hk) as [? ->]; clear H end; try (eexists; reflexivity).
    apply (horner_total G k); assumption.
  Qed.

  Lemma store_at_spec {A} (l : list A) i x : i < length l -> exists l', store_at l i x = Some l' /\ length l' = length l /\ nth_error l' i = Some x /\ forall j, j <> i -> nth_error l' j = nth_error l j.
  Proof.
    intros H. unfold store_at. apply Nat.ltb_lt in H as E. rewrite E. eexists. split; [reflexivity|]. clear E. revert i H. induction l as [|z l IH]; intros i H; [cbn in H; lia|].
    destruct i; [repeat split; intros [|j] N; [congruence|reflexivity]|]. cbn in H. destruct (IH i) as [A1 [A2 A3]]; [lia|]. cbn [firstn skipn app length nth_error] in *. split; [f_equal; exact A1|]. split; [exact A2|].
    intros [|j] N; [reflexivity|]. apply A3. congruence.
  Qed.

  Lemma run_spec G : wf G -> forall cs k inters, calculations G = firstn k (calculations G) ++ cs -> (k + length cs)%nat = length (calculations G) -> length inters = num_intermediates G ->
    (forall j c tg, j < k -> nth_error (calculations G) j = Some (c, tg) -> exists v, nth_error inters j = Some v /\ calculate (get G inp (rows G) inters) c = Some v) ->
    exists vals, run G inp (rows G) cs inters = Some vals /\ solves G vals.
  Proof.
    intros [W1 [W2 [W3 W4]]]. induction cs as [|[c tg] cs IH]; intros k inters HE HL HI HS.
    - exists inters. split; [reflexivity|]. split; [lia|]. intros j cc tg Hj. apply (HS j cc tg); [|exact Hj]. cbn in HL. assert (j < length (calculations G)) by (apply nth_error_Some; congruence). lia.
    - cbn in HL. assert (Hk : nth_error (calculations G) k = Some (c, tg)).
      { rewrite HE. rewrite nth_error_app2 by (rewrite firstn_length; lia). rewrite firstn_length. replace (k - Nat.min k (length (calculations G)))%nat with 0%nat by lia. reflexivity. }
      destruct (W4 k c tg Hk) as [-> HF]. cbn [run]. destruct (calculate_total G k inters c HF) as [v Hv]; [lia|]. rewrite Hv.
      destruct (store_at_spec inters k v) as [inters' [-> [L' [N1 N2]]]]; [lia|].
      assert (Ag : forall j, j <= k -> agree j inters inters') by (intros j Hj i Hi; symmetry; apply N2; lia).
      apply (IH (S k)).
      + assert (Hsk : skipn k (calculations G) = (c, k) :: cs). { rewrite HE. rewrite skipn_app. rewrite (skipn_all2 (firstn k (calculations G))) by (rewrite firstn_length; lia). rewrite firstn_length. replace (k - Nat.min k (length (calculations G)))%nat with 0%nat by lia. reflexivity. }
        assert (Hfs : firstn (S k) (calculations G) = firstn k (calculations G) ++ [(c, k)]).
        { rewrite <- (firstn_skipn k (calculations G)) at 1. rewrite firstn_app, firstn_firstn, firstn_length. rewrite Hsk. replace (Nat.min (S k) k) with k by lia. replace (S k - Nat.min k (length (calculations G)))%nat with 1%nat by lia. reflexivity. }
        rewrite Hfs. rewrite <- app_assoc. cbn [app]. exact HE.
      + lia.
      + lia.
      + intros j cc tg Hj Hjc. destruct (W4 j cc tg Hjc) as [-> HFj]. destruct (Nat.eq_dec j k) as [->|N].
        * rewrite Hk in Hjc. injection Hjc as <-. exists v. split; [exact N1|]. rewrite <- (calculate_agree G k inters inters' c HF (Ag k (Nat.le_refl k))). exact Hv.
        * destruct (HS j cc j) as [w [Hw Hcw]]; [lia|exact Hjc|]. exists w. rewrite N2 by exact N. split; [exact Hw|]. rewrite <- (calculate_agree G j inters inters' cc HFj); [exact Hcw|apply Ag; lia].
  Qed.

  Theorem evaluate_spec G inters : wf G -> length inters = num_intermediates G ->
    exists v vals, evaluate G inp (Z.of_nat idx) 1 inters = Some (v, vals) /\ solves G vals /\ length vals = num_intermediates G /\
      (calculations G = [] -> v = 0) /\ (forall cs c tg, calculations G = cs ++ [(c, tg)] -> calculate (get G inp (rows G) vals) c = Some v).
  Proof.
    intros Hw HL. unfold evaluate. rewrite (to_int32_small idx n Hidx Hn). cbn [in_n inp]. rewrite rotation_indices_spec by (try assumption; apply Hw).
    fold (rows G). change (Build_inputs t (Z.of_nat n) theta beta gamma y prev) with inp.
    destruct (run_spec G Hw (calculations G) 0 inters eq_refl) as [vals [E HS]]; [lia|exact HL|intros j c tg Hj; lia|]. 
    rewrite E. assert (HLv : length vals = num_intermediates G) by (destruct HS as [-> _]; destruct Hw as [-> _]; reflexivity).
    destruct (rev (calculations G)) as [|[c tg] rs] eqn:Er.
    - exists 0, vals. split; [reflexivity|]. split; [exact HS|]. split; [exact HLv|]. split; [auto|]. intros cs c tg Hc. rewrite Hc, rev_app_distr in Er. discriminate.
    - assert (Hc : calculations G = rev rs ++ [(c, tg)]) by (rewrite <- (rev_involutive (calculations G)), Er; reflexivity).
      assert (Hlast : nth_error (calculations G) (length (rev rs)) = Some (c, tg)) by (rewrite Hc, nth_error_app2, Nat.sub_diag by lia; reflexivity).
      destruct Hw as [W1 [W2 [W3 W4]]]. destruct (W4 _ c tg Hlast) as [Etg HF]. destruct HS as [HLs HSs]. destruct (HSs _ c tg Hlast) as [v [Hv Hcv]].
      rewrite Etg. rewrite Hv. exists v, vals. split; [reflexivity|]. split; [split; assumption|]. split; [exact HLv|]. split; [intros X; rewrite X in Hc; destruct (rev rs); discriminate|].
      intros cs c' tg' Hc'. rewrite Hc in Hc'. apply app_inj_tail in Hc' as [_ Hc']. injection Hc' as <- _. exact Hcv.
  Qed.
End Graph.
