(** The cycle store keeps the equivalence closure of the merged pairs. *)
From Coq Require Import FinFun List Arith Bool Lia Relations.
From Verif Require Import CycleModel CycleSpec CycleProof.
Import ListNotations.
Open Scope nat_scope.

Lemma label_eqb_spec : forall a b : label, reflect (a = b) (label_eqb a b).
Proof.
  intros [a1 a2] [b1 b2]. unfold label_eqb. cbn. destruct (Nat.eqb_spec a1 b1), (Nat.eqb_spec a2 b2); cbn; constructor; congruence.
Qed.
Lemma label_dec : forall a b : label, {a = b} + {a <> b}.
Proof. intros a b. destruct (label_eqb_spec a b); auto. Qed.

(** ** Tables *)
Definition shape {A : Type} (cols rows : nat) (t : list (list A)) : Prop := length t = cols /\ Forall (fun c => length c = rows) t.

Lemma nth_error_lt : forall {A} (l : list A) i, i < length l -> exists x, nth_error l i = Some x.
Proof. intros A l i H. destruct (nth_error l i) eqn:E; [eauto|]. apply nth_error_None in E. lia. Qed.
Lemma update_ok : forall {A} (l : list A) i x, i < length l -> exists l', update l i x = Some l' /\ length l' = length l /\ nth_error l' i = Some x /\ forall j, j <> i -> nth_error l' j = nth_error l j.
Proof.
  intros A. induction l as [|a l IH]; intros i x H; [cbn in H; lia|]. destruct i as [|i].
  - exists (x :: l). repeat split. intros [|j] Hj; [lia|reflexivity].
  - destruct (IH i x) as (l' & E & L & G & O); [cbn in H; lia|]. exists (a :: l'). cbn. rewrite E, L. repeat split; auto. intros [|j] Hj; [reflexivity|]. cbn. apply O. lia.
Qed.
Lemma tget_ok : forall {A} cols rows (t : list (list A)) l, shape cols rows t -> in_grid cols rows l -> exists x, tget t l = Some x.
Proof.
  intros A cols rows t [c r] [L HF] [Hc Hr]. cbn in Hc, Hr. unfold tget. cbn [fst snd]. destruct (nth_error_lt t c) as (col & E); [lia|]. rewrite E. apply nth_error_lt.
  rewrite Forall_forall in HF. rewrite (HF col); [exact Hr|]. now apply nth_error_In in E.
Qed.
Lemma tset_ok : forall {A} cols rows (t : list (list A)) l x, shape cols rows t -> in_grid cols rows l ->
  exists t', tset t l x = Some t' /\ shape cols rows t' /\ tget t' l = Some x /\ forall l', l' <> l -> tget t' l' = tget t l'.
Proof.
  intros A cols rows t [c r] x [L HF] [Hc Hr]. cbn in Hc, Hr. unfold tset, tget. cbn [fst snd]. destruct (nth_error_lt t c) as (col & E); [lia|]. rewrite E.
  rewrite Forall_forall in HF. assert (Lc : length col = rows) by (apply HF; now apply nth_error_In in E).
  destruct (update_ok col r x) as (col' & E1 & L1 & G1 & O1); [lia|]. rewrite E1. destruct (update_ok t c col') as (t' & E2 & L2 & G2 & O2); [lia|]. rewrite E2. exists t'. split; [reflexivity|]. split.
  - split; [lia|]. apply Forall_forall. intros y Hy. apply In_nth_error in Hy. destruct Hy as (i & Hi). destruct (Nat.eq_dec i c) as [->|N]; [rewrite G2 in Hi; injection Hi as <-; lia|]. rewrite O2 in Hi by exact N. apply HF. now apply nth_error_In in Hi.
  - split; [now rewrite G2|]. intros [c' r'] N. cbn [fst snd]. destruct (Nat.eq_dec c' c) as [->|Nc]; [|now rewrite O2]. rewrite G2, E. apply O1. congruence.
Qed.
Lemma cells_shape : forall {A} cols rows (t : list (list A)), shape cols rows t -> cells t = cols * rows.
Proof.
  intros A cols rows t [<- HF]. unfold cells. induction HF as [|c t Hc HF IH]; [reflexivity|]. cbn [concat length]. rewrite app_length, IH, Hc. reflexivity.
Qed.
Lemma all_cells_in : forall cols rows l, In l (all_cells cols rows) <-> in_grid cols rows l.
Proof.
  intros cols rows [c r]. unfold all_cells, in_grid. rewrite in_prod_iff, !in_seq. cbn. lia.
Qed.
Lemma all_cells_length : forall cols rows, length (all_cells cols rows) = cols * rows.
Proof. intros cols rows. unfold all_cells. now rewrite prod_length, !seq_length. Qed.

Definition look (t : list (list label)) (l : label) : label := match tget t l with Some x => x | None => l end.
Lemma look_some : forall cols rows t l, shape cols rows t -> in_grid cols rows l -> tget t l = Some (look t l).
Proof. intros cols rows t l S H. unfold look. destruct (tget_ok cols rows t l S H) as (x & ->). reflexivity. Qed.

(** ** The loop *)
Lemma relabel_ok : forall cols rows m, shape cols rows m -> (forall x, in_grid cols rows x -> in_grid cols rows (look m x)) ->
  forall n fuel ax left right l, 1 <= n <= fuel -> shape cols rows ax -> in_grid cols rows l -> iter n (look m) l = right -> (forall i, 0 < i < n -> iter i (look m) l <> right) ->
  exists ax', relabel fuel m ax left right l = Some ax' /\ shape cols rows ax' /\
    forall x, in_grid cols rows x -> ((exists i, i < n /\ iter i (look m) l = x) -> tget ax' x = Some left) /\ ((forall i, i < n -> iter i (look m) l <> x) -> tget ax' x = tget ax x).
Proof.
  intros cols rows m Sm Cm. induction n as [|n IH]; intros fuel ax left right l Hn Sa Hl E Hm; [lia|]. destruct fuel as [|fuel]; [lia|]. cbn [relabel].
  destruct (tset_ok cols rows ax l left Sa Hl) as (ax1 & E1 & S1 & G1 & O1). rewrite E1. rewrite (look_some cols rows m l Sm Hl). cbn [iter] in E.
  destruct (label_eqb_spec (look m l) right) as [Er|Nr].
  - destruct n as [|n]; [|exfalso; apply (Hm 1); [lia|exact Er]]. exists ax1. split; [reflexivity|]. split; [exact S1|]. intros x Hx. split.
    + intros (i & Hi & <-). replace i with 0 by lia. exact G1.
    + intros N. apply O1. intros ->. apply (N 0); [lia|reflexivity].
  - destruct n as [|n]; [cbn in E; congruence|].
    destruct (IH fuel ax1 left right (look m l)) as (ax' & E' & S' & H'); auto; [lia| |].
    { intros i Hi. apply (Hm (S i)). lia. }
    exists ax'. split; [exact E'|]. split; [exact S'|]. intros x Hx. destruct (H' x Hx) as [H1 H2]. split.
    + intros (i & Hi & <-). destruct i as [|i].
      * cbn [iter]. destruct (search (fun i => iter i (look m) (look m l) = l) (fun i => label_dec _ _) (S n)) as [(j & Hj & Ej & _)|N].
        { apply H1. now exists j. }
        { cbn [iter] in H2. rewrite H2; [exact G1|exact N]. }
      * apply H1. exists i. split; [lia|reflexivity].
    + intros N. rewrite H2; [|intros i Hi; apply (N (S i)); lia]. apply O1. intros ->. apply (N 0); [lia|reflexivity].
Qed.

(** ** The invariant *)
Section Inv.
  Variables (cols rows : nat).
  Notation all := (all_cells cols rows).
  Notation G := (in_grid cols rows).

  Record inv (R : label -> label -> Prop) (s : store) : Prop := {
    inv_m : shape cols rows (mapping s);
    inv_x : shape cols rows (aux s);
    inv_z : shape cols rows (sizes s);
    inv_mc : closed all (look (mapping s));
    inv_mi : injective all (look (mapping s));
    inv_xc : forall x, G x -> G (look (aux s) x);
    inv_r : forall x y, G x -> G y -> (R x y <-> reach (look (mapping s)) x y);
    inv_base : forall x, G x -> reach (look (mapping s)) x (look (aux s) x);
    inv_same : forall x y, G x -> G y -> reach (look (mapping s)) x y -> look (aux s) x = look (aux s) y;
    inv_size : forall x, G x -> tget (sizes s) (look (aux s) x) = Some (length (filter (fun y => label_eqb (look (aux s) y) (look (aux s) x)) all))
  }.

  Definition joined (R : label -> label -> Prop) (a b x y : label) : Prop := R x y \/ (R x a /\ R b y) \/ (R x b /\ R a y).

  Lemma filter_two : forall (g : label -> label) left right l, left <> right ->
    length (filter (fun y => label_eqb (if label_eqb (g y) right then left else g y) left) l) =
    length (filter (fun y => label_eqb (g y) left) l) + length (filter (fun y => label_eqb (g y) right) l).
  Proof.
    intros g left right l N. induction l as [|y l IH]; [reflexivity|]. cbn [filter].
    destruct (label_eqb_spec (g y) right) as [E|E].
    - destruct (label_eqb_spec left left) as [_|]; [|congruence]. destruct (label_eqb_spec (g y) left) as [E'|_]; [congruence|]. cbn [length]. lia.
    - destruct (label_eqb_spec (g y) left); cbn [length]; lia.
  Qed.
  Lemma filter_other : forall (g : label -> label) left right z l, z <> left -> z <> right ->
    filter (fun y => label_eqb (if label_eqb (g y) right then left else g y) z) l = filter (fun y => label_eqb (g y) z) l.
  Proof.
    intros g left right z l N1 N2. apply filter_ext. intros y. destruct (label_eqb_spec (g y) right) as [E|E]; [|reflexivity].
    destruct (label_eqb_spec left z); [congruence|]. destruct (label_eqb_spec (g y) z); congruence.
  Qed.

  (** One merge of two different cycles; a has the base left, b the base right. *)
  Lemma merge_core : forall R s a b left right m2 ax sz, inv R s -> G a -> G b ->
    look (aux s) a = left -> look (aux s) b = right -> left <> right ->
    shape cols rows m2 -> shape cols rows ax -> shape cols rows sz ->
    look m2 a = look (mapping s) b -> look m2 b = look (mapping s) a -> (forall x, x <> a -> x <> b -> look m2 x = look (mapping s) x) ->
    (forall x, G x -> look ax x = if label_eqb (look (aux s) x) right then left else look (aux s) x) ->
    (exists nl nr, tget (sizes s) left = Some nl /\ tget (sizes s) right = Some nr /\ tget sz left = Some (nl + nr)) ->
    (forall x, x <> left -> tget sz x = tget (sizes s) x) ->
    inv (joined R a b) (mk_store m2 ax sz).
  Proof.
    intros R s a b left right m2 ax sz V Ga Gb El Er N Sm Sx Sz Fa Fb Fo HX (nl & nr & Nl & Nr & Nz) Oz.
    set (f := look (mapping s)) in *. set (g := look (aux s)) in *. set (f' := look m2) in *.
    pose proof (inv_mc _ _ V) as Cf. pose proof (inv_mi _ _ V) as If. fold f in Cf, If.
    assert (Ia : In a all) by (now apply all_cells_in). assert (Ib : In b all) by (now apply all_cells_in).
    assert (sep : ~ reach f a b) by (intros H; apply N; rewrite <- El, <- Er; now apply (inv_same _ _ V)).
    assert (Fo' : forall x, In x all -> x <> a -> x <> b -> f' x = f x) by (intros; now apply Fo).
    pose proof (swap_closed label_dec all f f' a b Cf Ia Ib Fa Fb Fo') as C'.
    pose proof (swap_injective label_dec all f f' a b Cf If Ia Ib sep Fa Fb Fo') as I'.
    assert (SR : forall x y, G x -> G y -> (reach f' x y <-> reach f x y \/ (reach f x a /\ reach f b y) \/ (reach f x b /\ reach f a y))).
    { intros x y Gx Gy. apply (swap_reach label_dec all f f' a b Cf If Ia Ib sep Fa Fb Fo'); now apply all_cells_in. }
    assert (sym : forall x y, G x -> G y -> reach f x y -> reach f y x) by (intros x y Gx Gy H; apply (reach_sym label_dec all f x y); auto; now apply all_cells_in).
    assert (Gl : G left) by (rewrite <- El; now apply (inv_xc _ _ V)). assert (Gr : G right) by (rewrite <- Er; now apply (inv_xc _ _ V)).
    assert (gg : forall x, G x -> g (g x) = g x). { intros x Gx. symmetry. apply (inv_same _ _ V); [exact Gx|now apply (inv_xc _ _ V)|now apply (inv_base _ _ V)]. }
    assert (same : forall x y, G x -> G y -> (reach f x y <-> g x = g y)).
    { intros x y Gx Gy. split; [now apply (inv_same _ _ V)|]. intros E. apply (reach_trans f x (g x)); [now apply (inv_base _ _ V)|]. rewrite E. apply sym; [exact Gy|now apply (inv_xc _ _ V)|now apply (inv_base _ _ V)]. }
    assert (Rg : forall x y, G x -> G y -> (reach f' x y <-> (if label_eqb (g x) right then left else g x) = (if label_eqb (g y) right then left else g y))).
    { intros x y Gx Gy. rewrite (SR x y Gx Gy), (same x y Gx Gy), (same x a Gx Ga), (same b y Gb Gy), (same x b Gx Gb), (same a y Ga Gy), El, Er.
      destruct (label_eqb_spec (g x) right), (label_eqb_spec (g y) right); split; intros H; try tauto; try (destruct H as [H|[[H1 H2]|[H1 H2]]]; congruence); auto. all: try (left; congruence).
      }
    constructor; cbn [mapping aux sizes]; auto.
    - intros x Gx. rewrite HX by exact Gx. destruct (label_eqb_spec (g x) right); [exact Gl|now apply (inv_xc _ _ V)].
    - intros x y Gx Gy. fold f'. rewrite (SR x y Gx Gy). unfold joined. rewrite (inv_r _ _ V x y), (inv_r _ _ V x a), (inv_r _ _ V b y), (inv_r _ _ V x b), (inv_r _ _ V a y) by assumption. reflexivity.
    - intros x Gx. fold f'. rewrite HX by exact Gx. apply Rg; [exact Gx|destruct (label_eqb_spec (g x) right); [exact Gl|now apply (inv_xc _ _ V)]|].
      destruct (label_eqb_spec (g x) right) as [E|E].
      + replace (g left) with left by (rewrite <- El at 2; now rewrite gg). destruct (label_eqb_spec left right); congruence.
      + rewrite gg by exact Gx. destruct (label_eqb_spec (g x) right); congruence.
    - intros x y Gx Gy H. fold f' in H. rewrite (HX x), (HX y) by assumption. now apply Rg.
    - intros x Gx. rewrite (HX x Gx).
      assert (EF : forall z, filter (fun y => label_eqb (look ax y) z) all = filter (fun y => label_eqb (if label_eqb (g y) right then left else g y) z) all).
      { intros z. apply filter_ext_in. intros y Hy. rewrite HX; [reflexivity|now apply all_cells_in]. }
      rewrite EF. assert (Cl : tget (sizes s) left = Some (length (filter (fun y => label_eqb (g y) left) all))) by (rewrite <- El; now apply (inv_size _ _ V)).
      assert (Cr : tget (sizes s) right = Some (length (filter (fun y => label_eqb (g y) right) all))) by (rewrite <- Er; now apply (inv_size _ _ V)).
      assert (Two : tget sz left = Some (length (filter (fun y => label_eqb (if label_eqb (g y) right then left else g y) left) all))).
      { rewrite (filter_two g left right all N), Nz. f_equal. rewrite Nl in Cl. rewrite Nr in Cr. injection Cl as ->. injection Cr as ->. reflexivity. }
      destruct (label_eqb_spec (g x) right) as [E|E]; [exact Two|].
      destruct (label_dec (g x) left) as [->|E2]; [exact Two|].
      rewrite filter_other by assumption. rewrite Oz by exact E2. now apply (inv_size _ _ V).
  Qed.

  Lemma joined_comm : forall R a b x y, joined R a b x y <-> joined R b a x y.
  Proof. intros. unfold joined. tauto. Qed.
  Lemma inv_ext : forall R R' s, (forall x y, G x -> G y -> (R x y <-> R' x y)) -> inv R s -> inv R' s.
  Proof. intros R R' s H V. destruct V; constructor; auto. intros x y Gx Gy. rewrite <- (H x y Gx Gy). auto. Qed.

  Lemma merge_ok : forall R s a b, inv R s -> G a -> G b -> exists x s', merge_cycle s a b = Some (x, s') /\ inv (joined R a b) s' /\ (x = true <-> ~ R a b).
  Proof.
    intros R s a b V Ga Gb. pose proof (inv_m _ _ V) as Sm. pose proof (inv_x _ _ V) as Sx. pose proof (inv_z _ _ V) as Sz.
    unfold merge_cycle, get_cycle_base. rewrite (look_some cols rows _ a Sx Ga), (look_some cols rows _ b Sx Gb).
    set (ba := look (aux s) a). set (bb := look (aux s) b).
    assert (sym : forall x y, G x -> G y -> reach (look (mapping s)) x y -> reach (look (mapping s)) y x).
    { intros x y Gx Gy H. apply (reach_sym label_dec all _ x y); auto; [apply (inv_mc _ _ V)|apply (inv_mi _ _ V)|now apply all_cells_in]. }
    assert (Gba : G ba) by (now apply (inv_xc _ _ V)). assert (Gbb : G bb) by (now apply (inv_xc _ _ V)).
    assert (Rab : R a b <-> ba = bb).
    { rewrite (inv_r _ _ V a b Ga Gb). split; [now apply (inv_same _ _ V)|]. intros E. apply (reach_trans _ a ba); [now apply (inv_base _ _ V)|]. rewrite E. apply sym; auto. now apply (inv_base _ _ V). }
    destruct (label_eqb_spec ba bb) as [E|N].
    - exists false, s. split; [reflexivity|]. split; [|split; [discriminate|intros H; exfalso; apply H; now apply Rab]].
      apply (inv_ext R); [|exact V]. intros x y Gx Gy. unfold joined. rewrite (inv_r _ _ V x y), (inv_r _ _ V x a), (inv_r _ _ V b y), (inv_r _ _ V x b), (inv_r _ _ V a y) by assumption.
      assert (AB : reach (look (mapping s)) a b) by (apply (inv_r _ _ V); auto; now apply Rab). pose proof (sym a b Ga Gb AB) as BA.
      split; [now left|]. intros [H|[[H1 H2]|[H1 H2]]]; [exact H| |].
      + apply (reach_trans _ x a); [exact H1|]. now apply (reach_trans _ a b).
      + apply (reach_trans _ x b); [exact H1|]. now apply (reach_trans _ b a).
    - assert (Hn : true = true <-> ~ R a b) by (split; [intros _ H; now apply N, Rab|reflexivity]).
      rewrite (inv_size _ _ V a Ga : tget (sizes s) ba = _), (inv_size _ _ V b Gb : tget (sizes s) bb = _).
      set (na := length _). set (nb := length _).
      (* the two orders *)
      assert (K : forall a1 b1 n1 n2, G a1 -> G b1 -> look (aux s) a1 <> look (aux s) b1 ->
                  tget (sizes s) (look (aux s) a1) = Some n1 -> tget (sizes s) (look (aux s) b1) = Some n2 ->
                  (a1 = a /\ b1 = b \/ a1 = b /\ b1 = a) ->
                  exists sz ax m1 m2, tset (sizes s) (look (aux s) a1) (n1 + n2) = Some sz /\
                    relabel (cells (mapping s)) (mapping s) (aux s) (look (aux s) a1) (look (aux s) b1) (look (aux s) b1) = Some ax /\
                    tset (mapping s) a (look (mapping s) b) = Some m1 /\ tset m1 b (look (mapping s) a) = Some m2 /\ inv (joined R a b) (mk_store m2 ax sz)).
      { intros a1 b1 n1 n2 G1 G2 N1 Z1 Z2 Hab. set (left := look (aux s) a1) in *. set (right := look (aux s) b1) in *.
        assert (Gl : G left) by (now apply (inv_xc _ _ V)). assert (Gr : G right) by (now apply (inv_xc _ _ V)).
        destruct (tset_ok cols rows (sizes s) left (n1 + n2) Sz Gl) as (sz & Ez & Ssz & Zg & Zo).
        destruct (period label_dec all (look (mapping s)) right) as (p & Hp & Ep & Hm); [apply (inv_mc _ _ V)|apply (inv_mi _ _ V)|now apply all_cells_in|].
        rewrite all_cells_length in Hp.
        destruct (relabel_ok cols rows (mapping s) Sm) with (n := p) (fuel := cells (mapping s)) (ax := aux s) (left := left) (right := right) (l := right) as (ax & Ex & Sax & Xs); auto.
        { intros x Gx. apply all_cells_in, (inv_mc _ _ V), all_cells_in, Gx. } { rewrite (cells_shape cols rows) by exact Sm. exact Hp. }
        destruct (tset_ok cols rows (mapping s) a (look (mapping s) b) Sm Ga) as (m1 & E1 & S1 & M1 & O1).
        destruct (tset_ok cols rows m1 b (look (mapping s) a) S1 Gb) as (m2 & E2 & S2 & M2 & O2).
        exists sz, ax, m1, m2. repeat (split; [assumption|]).
        assert (ab : a <> b) by (intros ->; now apply N).
        assert (La : look m2 a = look (mapping s) b) by (unfold look at 1; rewrite O2, M1 by exact ab; reflexivity).
        assert (Lb : look m2 b = look (mapping s) a) by (unfold look at 1; now rewrite M2).
        assert (Lo : forall x, x <> a -> x <> b -> look m2 x = look (mapping s) x) by (intros x Na Nb; unfold look; now rewrite O2, O1).
        assert (gg : look (aux s) right = right) by (symmetry; apply (inv_same _ _ V); [exact G2|exact Gr|now apply (inv_base _ _ V)]).
        assert (LX : forall x, G x -> look ax x = if label_eqb (look (aux s) x) right then left else look (aux s) x).
        { intros x Gx. destruct (Xs x Gx) as [X1 X2]. destruct (label_eqb_spec (look (aux s) x) right) as [E|E].
          - assert (Hx : reach (look (mapping s)) right x). { apply sym; auto. rewrite <- E. now apply (inv_base _ _ V). }
            destruct Hx as [k Hk]. unfold look at 1. rewrite X1; [reflexivity|]. exists (k mod p). pose proof (Nat.mod_upper_bound k p ltac:(lia)). split; [assumption|].
            rewrite <- Hk. rewrite (Nat.div_mod k p) at 2 by lia. rewrite iter_add, (Nat.mul_comm p), (iter_period _ p) by exact Ep. reflexivity.
          - unfold look at 1. rewrite X2; [reflexivity|]. intros i Hi Ei. apply E. rewrite <- gg. symmetry. apply (inv_same _ _ V); auto. now exists i. }
        destruct Hab as [[-> ->]|[-> ->]].
        - apply (merge_core R s a b left right m2 ax sz); auto. exists n1, n2. auto.
        - apply (inv_ext (joined R b a)); [intros; apply joined_comm|]. apply (merge_core R s b a left right m2 ax sz); auto. exists n1, n2. auto. }
      rewrite (look_some cols rows _ a Sm Ga), (look_some cols rows _ b Sm Gb).
      destruct (na <? nb).
      + destruct (K b a nb na Gb Ga) as (sz & ax & m1 & m2 & E1 & E2 & E3 & E4 & V'); [intros E; apply N; now symmetry|exact (inv_size _ _ V b Gb)|exact (inv_size _ _ V a Ga)|now right|].
        fold ba bb in E1, E2. rewrite E1, E2, E3, E4. exists true, (mk_store m2 ax sz). auto.
      + destruct (K a b na nb Ga Gb) as (sz & ax & m1 & m2 & E1 & E2 & E3 & E4 & V'); [exact N|exact (inv_size _ _ V a Ga)|exact (inv_size _ _ V b Gb)|now left|].
        fold ba bb in E1, E2. rewrite E1, E2, E3, E4. exists true, (mk_store m2 ax sz). auto.
  Qed.

  (** ** Connection *)
  Lemma connected_snoc : forall pairs a b x y, connected (pairs ++ [(a, b)]) x y <-> joined (connected pairs) a b x y.
  Proof.
    intros pairs a b. unfold connected, joined.
    assert (Mono : forall x y, clos_refl_sym_trans _ (fun a b => In (a, b) pairs) x y -> clos_refl_sym_trans _ (fun c d => In (c, d) (pairs ++ [(a, b)])) x y).
    { intros x y H. induction H; [apply rst_step, in_or_app; now left|apply rst_refl|now apply rst_sym|eapply rst_trans; eauto]. }
    assert (AB : clos_refl_sym_trans _ (fun c d => In (c, d) (pairs ++ [(a, b)])) a b) by (apply rst_step, in_or_app; right; now left).
    intros x y. split.
    - intros H. induction H as [x y H|x|x y H IH|x y z H1 IH1 H2 IH2].
      + apply in_app_or in H. destruct H as [H|[H|[]]]; [left; now apply rst_step|]. injection H as <- <-. right. left. split; apply rst_refl.
      + left. apply rst_refl.
      + destruct IH as [IH|[[A B]|[A B]]]; [left; now apply rst_sym|right; right|right; left]; split; now apply rst_sym.
      + destruct IH1 as [A|[[A B]|[A B]]]; destruct IH2 as [D|[[D E]|[D E]]].
        * left. now apply (rst_trans _ _ x y).
        * right. left. split; [now apply (rst_trans _ _ x y)|exact E].
        * right. right. split; [now apply (rst_trans _ _ x y)|exact E].
        * right. left. split; [exact A|now apply (rst_trans _ _ b y)].
        * right. left. split; [exact A|exact E].
        * left. apply (rst_trans _ _ x a); [exact A|exact E].
        * right. right. split; [exact A|now apply (rst_trans _ _ a y)].
        * left. apply (rst_trans _ _ x b); [exact A|exact E].
        * right. right. split; [exact A|exact E].
    - intros [H|[[H1 H2]|[H1 H2]]]; [now apply Mono| |].
      + apply (rst_trans _ _ x a); [now apply Mono|]. apply (rst_trans _ _ a b); [exact AB|now apply Mono].
      + apply (rst_trans _ _ x b); [now apply Mono|]. apply (rst_trans _ _ b a); [now apply rst_sym|now apply Mono].
  Qed.

  Lemma merge_all_ok : forall pairs done s, inv (connected done) s -> Forall (fun p => G (fst p) /\ G (snd p)) pairs ->
    exists xs s', merge_all s pairs = Some (xs, s') /\ inv (connected (done ++ pairs)) s' /\ length xs = length pairs /\
      forall i a b x, nth_error pairs i = Some (a, b) -> nth_error xs i = Some x -> (x = true <-> ~ connected (done ++ firstn i pairs) a b).
  Proof.
    induction pairs as [|[a b] pairs IH]; intros done s V HF.
    - exists [], s. rewrite app_nil_r. split; [reflexivity|]. split; [exact V|]. split; [reflexivity|]. intros i a b x H; destruct i; discriminate.
    - apply Forall_cons_iff in HF. destruct HF as [[Ga Gb] HF]. cbn [fst snd] in *. cbn [merge_all].
      destruct (merge_ok (connected done) s a b V Ga Gb) as (x & s1 & E & V1 & Hx). rewrite E.
      apply (inv_ext _ (connected (done ++ [(a, b)]))) in V1; [|intros u v _ _; now rewrite connected_snoc].
      destruct (IH (done ++ [(a, b)]) s1 V1 HF) as (xs & s' & E' & V' & L & H). rewrite E'. exists (x :: xs), s'. split; [reflexivity|]. rewrite <- app_assoc in V'. cbn [app] in V'. split; [exact V'|]. split; [cbn; lia|].
      intros [|i] a' b' x' Hp Hr.
      + cbn in Hp, Hr. injection Hp as <- <-. injection Hr as <-. cbn [firstn]. rewrite app_nil_r. exact Hx.
      + cbn [nth_error] in Hp, Hr. specialize (H i a' b' x' Hp Hr). rewrite <- app_assoc in H. exact H.
  Qed.

  Lemma create_get : forall l, G l -> tget (mapping (create cols rows)) l = Some l /\ tget (aux (create cols rows)) l = Some l /\ tget (sizes (create cols rows)) l = Some 1.
  Proof.
    intros [c r] [Hc Hr]. cbn in Hc, Hr. assert (E : tget (mapping (create cols rows)) (c, r) = Some (c, r)).
    { unfold create, tget. cbn [mapping fst snd]. rewrite nth_error_map. rewrite (nth_error_nth' (seq 0 cols) 0) by (now rewrite seq_length). rewrite seq_nth by exact Hc. cbn [option_map Nat.add].
      rewrite nth_error_map. rewrite (nth_error_nth' (seq 0 rows) 0) by (now rewrite seq_length). rewrite seq_nth by exact Hr. reflexivity. }
    split; [exact E|]. split; [exact E|]. unfold create, tget. cbn [sizes fst snd]. rewrite nth_error_repeat by exact Hc. now rewrite nth_error_repeat.
  Qed.
  Lemma create_shapes : shape cols rows (mapping (create cols rows)) /\ shape cols rows (aux (create cols rows)) /\ shape cols rows (sizes (create cols rows)).
  Proof.
    assert (S : shape cols rows (mapping (create cols rows))).
    { split; [unfold create; cbn; now rewrite map_length, seq_length|]. unfold create. cbn. apply Forall_map, Forall_forall. intros c _. now rewrite map_length, seq_length. }
    split; [exact S|]. split; [exact S|]. split; cbn; [apply repeat_length|]. apply Forall_forall. intros c H. apply repeat_spec in H. subst c. apply repeat_length.
  Qed.
  Lemma filter_self : forall (l : list label) x, NoDup l -> In x l -> length (filter (fun y => label_eqb y x) l) = 1.
  Proof.
    intros l x ND H. induction l as [|a l IH]; [destruct H|]. apply NoDup_cons_iff in ND. destruct ND as [N ND]. cbn [filter]. destruct (label_eqb_spec a x) as [->|E].
    - cbn. f_equal. clear - N. induction l as [|y l IH]; [reflexivity|]. cbn. destruct (label_eqb_spec y x) as [->|]; [exfalso; apply N; now left|]. apply IH. intros Hin. apply N. now right.
    - destruct H as [H|H]; [congruence|]. now apply IH.
  Qed.
  Lemma all_cells_nodup : NoDup all.
  Proof.
    unfold all_cells. generalize (seq_NoDup cols 0), (seq_NoDup rows 0). generalize (seq 0 cols) (seq 0 rows). intros l l' H H'. induction H as [|a l N H IH]; [constructor|]. cbn [list_prod].
    assert (D : forall (u v : list label), NoDup u -> NoDup v -> (forall x, In x u -> ~ In x v) -> NoDup (u ++ v)).
    { clear. induction u as [|x u IH]; intros v Hu Hv D; [exact Hv|]. apply NoDup_cons_iff in Hu. destruct Hu as [N Hu]. cbn. constructor.
      - intros Hin. apply in_app_or in Hin. destruct Hin as [Hin|Hin]; [exact (N Hin)|]. apply (D x); [now left|exact Hin].
      - apply IH; auto. intros y Hy. apply D. now right. }
    apply D; [|exact IH|].
    - apply FinFun.Injective_map_NoDup; [|exact H']. intros x y E. congruence.
    - intros x Hx Hy. apply in_map_iff in Hx. destruct Hx as (y & <- & _). apply in_prod_iff in Hy. now apply N.
  Qed.
  Lemma create_inv : inv (connected []) (create cols rows).
  Proof.
    destruct create_shapes as (Sm & Sx & Sz).
    assert (LM : forall x, G x -> look (mapping (create cols rows)) x = x) by (intros x Gx; unfold look; destruct (create_get x Gx) as (-> & _); reflexivity).
    assert (LX : forall x, G x -> look (aux (create cols rows)) x = x) by (intros x Gx; unfold look; destruct (create_get x Gx) as (_ & -> & _); reflexivity).
    assert (Re : forall x y, G x -> (reach (look (mapping (create cols rows))) x y <-> x = y)).
    { intros x y Gx. split; [|intros ->; apply reach_refl]. intros [k E]. revert E. induction k as [|k IH]; intros E; [exact E|]. cbn [iter] in E. rewrite LM in E by exact Gx. auto. }
    assert (Co : forall x y, connected [] x y <-> x = y).
    { intros x y. split; [|intros ->; apply rst_refl]. intros H. unfold connected in H. induction H as [x y []| | |]; congruence. }
    constructor; auto.
    - intros x Hx. apply all_cells_in in Hx. rewrite LM by exact Hx. now apply all_cells_in.
    - intros x y Hx Hy E. apply all_cells_in in Hx, Hy. rewrite !LM in E by assumption. exact E.
    - intros x Gx. now rewrite LX.
    - intros x y Gx Gy. now rewrite Co, Re.
    - intros x Gx. rewrite LX by exact Gx. apply reach_refl.
    - intros x y Gx Gy H. apply Re in H; [congruence|exact Gx].
    - intros x Gx. rewrite LX by exact Gx. destruct (create_get x Gx) as (_ & _ & ->). f_equal. symmetry.
      rewrite (filter_ext_in _ (fun y => label_eqb y x)); [apply filter_self; [apply all_cells_nodup|now apply all_cells_in]|]. intros y Hy. apply all_cells_in in Hy. now rewrite LX.
  Qed.

  (** ** What a user of the store sees *)
  Lemma reach_reaches : forall s x y, shape cols rows (mapping s) -> closed all (look (mapping s)) -> G x -> (reach (look (mapping s)) x y <-> reaches (get_next_label s) x y).
  Proof.
    intros s x y Sm Cm Gx. split.
    - intros [k E]. revert x Gx E. induction k as [|k IH]; intros x Gx E; [cbn in E; subst; constructor|]. cbn [iter] in E.
      eapply reaches_step; [apply (look_some cols rows); eassumption|]. apply IH; [|exact E]. apply all_cells_in, Cm, all_cells_in, Gx.
    - intros H. induction H as [x|x x' y E H IH]; [apply reach_refl|]. unfold get_next_label in E. assert (Ex : look (mapping s) x = x') by (unfold look; now rewrite E).
      apply (reach_trans _ x x'); [exists 1; exact Ex|]. apply IH. rewrite <- Ex. apply all_cells_in, Cm, all_cells_in, Gx.
  Qed.

  Theorem cycle_store_correct : forall pairs, Forall (fun p => G (fst p) /\ G (snd p)) pairs ->
    exists xs s, merge_all (create cols rows) pairs = Some (xs, s) /\
      (forall i a b x, nth_error pairs i = Some (a, b) -> nth_error xs i = Some x -> (x = true <-> ~ connected (firstn i pairs) a b)) /\
      (forall a b, G a -> G b -> exists r, check_same_cycle s a b = Some r /\ (r = true <-> connected pairs a b)) /\
      (forall a, G a -> exists b, get_next_label s a = Some b /\ G b) /\
      (forall a b c, G a -> G b -> get_next_label s a = Some c -> get_next_label s b = Some c -> a = b) /\
      (forall a b, G a -> G b -> (reaches (get_next_label s) a b <-> connected pairs a b)) /\
      (forall a, G a -> exists same n, get_cycle_size s a = Some n /\ n = length (filter same all) /\ forall b, G b -> (same b = true <-> connected pairs a b)).
  Proof.
    intros pairs HF. destruct (merge_all_ok pairs [] (create cols rows) create_inv HF) as (xs & s & E & V & L & H). cbn [app] in *. exists xs, s. split; [exact E|]. split; [exact H|].
    pose proof (inv_m _ _ V) as Sm. pose proof (inv_x _ _ V) as Sx. pose proof (inv_mc _ _ V) as Cm.
    assert (Cl : forall a, G a -> G (look (mapping s) a)) by (intros a Ga; apply all_cells_in, Cm, all_cells_in, Ga).
    assert (sym : forall x y, G x -> G y -> reach (look (mapping s)) x y -> reach (look (mapping s)) y x).
    { intros x y Gx Gy Hr. apply (reach_sym label_dec all _ x y); auto; [apply (inv_mi _ _ V)|now apply all_cells_in]. }
    assert (same : forall a b, G a -> G b -> (look (aux s) a = look (aux s) b <-> connected pairs a b)).
    { intros a b Ga Gb. rewrite (inv_r _ _ V a b Ga Gb). split; [|now apply (inv_same _ _ V)]. intros Eq. apply (reach_trans _ a (look (aux s) a)); [now apply (inv_base _ _ V)|]. rewrite Eq. apply sym; [exact Gb|now apply (inv_xc _ _ V)|now apply (inv_base _ _ V)]. }
    split; [|split; [|split; [|split]]].
    - intros a b Ga Gb. unfold check_same_cycle, get_cycle_base. rewrite (look_some cols rows _ a Sx Ga), (look_some cols rows _ b Sx Gb). eexists. split; [reflexivity|]. rewrite <- (same a b Ga Gb). destruct (label_eqb_spec (look (aux s) a) (look (aux s) b)); split; congruence.
    - intros a Ga. exists (look (mapping s) a). split; [now apply (look_some cols rows)|auto].
    - intros a b c Ga Gb Ea Eb. apply (inv_mi _ _ V); [now apply all_cells_in|now apply all_cells_in|]. unfold get_next_label in Ea, Eb. unfold look. now rewrite Ea, Eb.
    - intros a b Ga Gb. rewrite <- (reach_reaches s a b Sm Cm Ga). symmetry. now apply (inv_r _ _ V).
    - intros a Ga. exists (fun b => label_eqb (look (aux s) b) (look (aux s) a)). eexists. unfold get_cycle_size, get_cycle_base. rewrite (look_some cols rows _ a Sx Ga). split; [now apply (inv_size _ _ V)|]. split; [reflexivity|].
      intros b Gb. rewrite <- (same a b Ga Gb). destruct (label_eqb_spec (look (aux s) b) (look (aux s) a)); split; congruence.
  Qed.

  (** An assignment satisfies all copy constraints exactly when it is unchanged along next. *)
  Theorem copy_constraints : forall pairs, Forall (fun p => G (fst p) /\ G (snd p)) pairs ->
    exists xs s, merge_all (create cols rows) pairs = Some (xs, s) /\
      forall (T : Type) (v : label -> T),
        (forall a b, In (a, b) pairs -> v a = v b) <-> (forall a b, G a -> get_next_label s a = Some b -> v a = v b).
  Proof.
    intros pairs HF. destruct (cycle_store_correct pairs HF) as (xs & s & E & _ & _ & Tot & _ & Re & _). exists xs, s. split; [exact E|]. intros T v. split.
    - intros H a b Ga Hab. destruct (Tot a Ga) as (b' & Eb & Gb). rewrite Hab in Eb. injection Eb as <-.
      assert (Hc : connected pairs a b) by (apply Re; auto; econstructor; [exact Hab|constructor]). clear - Hc H. unfold connected in Hc. induction Hc; auto; congruence.
    - intros H a b Hin. rewrite Forall_forall in HF. destruct (HF _ Hin) as [Ga Gb]. cbn [fst snd] in *.
      assert (Hr : reaches (get_next_label s) a b) by (apply Re; auto; now apply rst_step). clear Gb Hin. induction Hr as [a|a a' b Ha Hr IH]; [reflexivity|].
      destruct (Tot a Ga) as (b' & Eb & Gb). rewrite Ha in Eb. injection Eb as <-. transitivity (v a'); [now apply H|now apply IH].
  Qed.
End Inv.

Lemma get_all_labels_repeats : forall cols rows l, in_grid cols rows l -> get_all_labels (create cols rows) l = Some [l; l].
Proof.
  intros cols rows l H. destruct (create_get cols rows l H) as (Em & Ex & _). unfold get_all_labels, get_cycle_base. rewrite Ex.
  destruct (create_shapes cols rows) as (Sm & _ & _). rewrite (cells_shape cols rows) by exact Sm.
  destruct (cols * rows) as [|n] eqn:En; [destruct H as [Hc Hr]; destruct cols, rows; cbn in *; lia|]. cbn [collect]. rewrite Em. destruct (label_eqb_spec l l); [reflexivity|congruence].
Qed.
Lemma copy_last_row_undefined : forall cols rows c c', c < cols -> c' < cols -> copy rows (create cols rows) c rows c' 0 = None.
Proof.
  intros cols rows c c' Hc Hc'. unfold copy. rewrite Nat.leb_refl. cbn [Nat.leb andb]. unfold merge_cycle, get_cycle_base, tget at 1. cbn [fst snd].
  destruct (create_shapes cols rows) as (_ & Sx & _). destruct Sx as [L HF]. destruct (nth_error_lt (aux (create cols rows)) c) as (col & E); [lia|]. rewrite E.
  rewrite Forall_forall in HF. assert (length col = rows) by (apply HF; now apply nth_error_In in E). destruct (nth_error col rows) eqn:En; [|reflexivity].
  assert (rows < length col) by (apply nth_error_Some; congruence). lia.
Qed.
