(** Proofs about sparse multivariate polynomials. *)
From Coq Require Import ZArith NArith List Bool Lia Field Sorted.
From Verif Require Import Field MvSparseModel MvSparseSpec.
Import ListNotations.

(** ** Degrees. *)
Lemma degree_nonneg l : (0 <= total_degree l)%Z.
Proof. unfold total_degree. induction l; cbn [fold_right]; lia. Qed.
Lemma to_int_small z : (0 <= z < 2 ^ 31)%Z -> to_int z = z.
Proof. intros. unfold to_int. rewrite Z.mod_small; lia. Qed.
Lemma to_size_small z : (0 <= z < 2 ^ 64)%Z -> to_size z = z.
Proof. intros. unfold to_size. apply Z.mod_small. assumption. Qed.
Lemma degree_acc l : forall acc, (0 <= acc)%Z -> (acc + total_degree l < 2 ^ 31)%Z ->
  fold_left (fun acc e => to_int (to_size (to_size acc + Z.of_N (snd e)))) l acc = (acc + total_degree l)%Z.
Proof.
  induction l as [|e r IH]; intros acc Ha Hb; cbn [fold_left total_degree fold_right] in *.
  - lia.
  - fold (total_degree r) in *. pose proof (degree_nonneg r).
    rewrite (to_size_small acc), to_size_small, to_int_small by lia. rewrite IH by lia. lia.
Qed.
Lemma lit_degree_ok l : (total_degree l < 2 ^ 31)%Z -> lit_degree l = total_degree l.
Proof.
  intros H. unfold lit_degree. rewrite degree_acc by lia. rewrite Z.add_0_l. apply to_size_small.
  pose proof (degree_nonneg l). lia.
Qed.
Lemma el_eqb_eq a b : el_eqb a b = true <-> a = b.
Proof.
  destruct a, b. unfold el_eqb. cbn. rewrite andb_true_iff, !N.eqb_eq. split; [intros [-> ->]; reflexivity | intros E; injection E; auto].
Qed.
Lemma els_eqb_eq a : forall b, els_eqb a b = true <-> a = b.
Proof.
  induction a as [|x a IH]; intros [|y b]; cbn; split; intros H; try discriminate; try reflexivity.
  - apply andb_true_iff in H. destruct H as [H1 H2]. apply el_eqb_eq in H1. apply IH in H2. congruence.
  - injection H as -> ->. apply andb_true_iff. split; [apply el_eqb_eq; reflexivity | apply IH; reflexivity].
Qed.
Lemma lit_eqb_same a b : (total_degree a < 2 ^ 31)%Z -> (total_degree b < 2 ^ 31)%Z ->
  lit_eqb a b = true <-> same_monomial a b.
Proof.
  intros Ha Hb. unfold lit_eqb, same_monomial. rewrite orb_true_iff, andb_true_iff, !Z.eqb_eq, !lit_degree_ok by assumption.
  rewrite els_eqb_eq. tauto.
Qed.
Lemma el_lt_irrefl x : el_lt x x = false.
Proof. unfold el_lt. rewrite (N.eqb_refl (fst x)), !N.ltb_irrefl. cbn [negb]. destruct (negb _ && negb _); reflexivity. Qed.
Lemma last_opt_some {A} (l : list A) : l <> [] -> exists x, last_opt l = Some x.
Proof.
  induction l as [|x [|y r] IH]; intros H; [contradiction | exists x; reflexivity |]. apply IH. discriminate.
Qed.
Lemma lit_lt_ret a b : a <> [] -> b <> [] -> exists c, lit_lt a b = Ret c.
Proof.
  intros Ha Hb. destruct (last_opt_some a Ha) as (x & E1), (last_opt_some b Hb) as (y & E2).
  unfold lit_lt. rewrite E1, E2. eexists. reflexivity.
Qed.
Lemma lit_lt_irrefl a : a <> [] -> lit_lt a a = Ret false.
Proof.
  intros Ha. destruct (last_opt_some a Ha) as (x & E1). unfold lit_lt. rewrite E1.
  replace (el_eqb x x) with true by (symmetry; apply el_eqb_eq; reflexivity). rewrite Nat.ltb_irrefl. reflexivity.
Qed.
(** Powers of single variables are ordered, constants apart. *)
Lemma single_same v e v' e' : lit_lt [(v, e)] [(v', e')] = Ret false -> lit_lt [(v', e')] [(v, e)] = Ret false ->
  same_monomial [(v, e)] [(v', e')].
Proof.
  unfold lit_lt. cbn [last_opt length]. intros H1 H2. injection H1 as H1. injection H2 as H2.
  destruct (el_eqb (v, e) (v', e')) eqn:E; [apply el_eqb_eq in E; left; congruence |].
  destruct (el_eqb (v', e') (v, e)) eqn:E'; [apply el_eqb_eq in E'; left; congruence |].
  assert (N : (v, e) <> (v', e')) by (intros H; apply el_eqb_eq in H; congruence).
  unfold el_lt in *. cbn [fst snd] in *.
  destruct (N.eqb_spec e 0), (N.eqb_spec e' 0); cbn [negb andb] in *; subst.
  - right. split; reflexivity.
  - apply N.ltb_ge in H1. lia.
  - apply N.ltb_ge in H2. lia.
  - destruct (N.eqb_spec v v'), (N.eqb_spec v' v); cbn [negb] in *; subst; try congruence;
      apply N.ltb_ge in H1; apply N.ltb_ge in H2.
    + exfalso. apply N. f_equal. lia.
    + exfalso. lia.
Qed.

Section Values.
  Variable K : fld.
  Add Field Kf : (fld_theory K).
  Open Scope fld_scope.
  Notation term := (list (N * N) * K)%type.
  Notation monv := (monomial_value K).
  Notation val := (value K).

  Lemma mon_const x l : total_degree l = 0%Z -> monv x l = 1.
  Proof.
    induction l as [|[v e] r IH]; intros H; [reflexivity |].
    cbn [total_degree fold_right snd] in H. fold (total_degree r) in H. pose proof (degree_nonneg r).
    unfold monomial_value in *. cbn [map fprod fst snd]. rewrite IH by lia. replace e with 0%N by lia. cbn [N.to_nat fpow]. ring.
  Qed.
  Lemma mon_same x l l' : same_monomial l l' -> monv x l = monv x l'.
  Proof. intros [-> | [H1 H2]]; [reflexivity |]. rewrite !mon_const by assumption. reflexivity. Qed.

  Lemma val_cons x t ts : val x (t :: ts) = snd t * monv x (fst t) + val x ts.
  Proof. reflexivity. Qed.
  Lemma val_neg x ts : val x (map (term_neg K) ts) = - val x ts.
  Proof. induction ts as [|t r IH]; cbn [map]; [cbn; ring |]. rewrite !val_cons, IH. cbn [term_neg fst snd]. ring. Qed.
  Lemma val_app x a b : val x (a ++ b) = val x a + val x b.
  Proof. induction a as [|t r IH]; cbn [app]; [cbn; ring |]. rewrite !val_cons, IH. ring. Qed.

  (** ** Evaluation. *)
  Lemma lit_serial_ok (pts : list K) l : (forall e, In e l -> (N.to_nat (fst e) < length pts)%nat) ->
    lit_serial K pts l = Ret (monv (at_point K pts) l).
  Proof.
    unfold lit_serial. intros H.
    cut (forall acc : K, fold_out (fun acc (e : elem) =>
      match nth_error pts (N.to_nat (fst e)) with
      | Some x => Ret (acc * x ^ N.to_nat (snd e))
      | None => Undef
      end) l acc = Ret (acc * monv (at_point K pts) l)).
    { intros C. rewrite C. f_equal. ring. }
    induction l as [|e r IH]; intros acc; cbn [fold_out].
    - f_equal. unfold monomial_value. cbn. ring.
    - assert (B := H e (or_introl eq_refl)). rewrite (nth_error_nth' pts 0 B). cbn [bind].
      rewrite IH by (intros; apply H; right; assumption). f_equal. unfold monomial_value at 2. cbn [map fprod].
      fold (monv (at_point K pts) r). unfold at_point at 2. ring.
  Qed.
  Lemma map_out_ret {A B} (f : A -> out B) (g : A -> B) l : (forall x, In x l -> f x = Ret (g x)) ->
    map_out f l = Ret (map g l).
  Proof.
    induction l as [|x r IH]; intros H; [reflexivity |]. cbn [map_out map].
    rewrite H by (left; reflexivity). cbn [bind]. rewrite IH by (intros; apply H; right; assumption). reflexivity.
  Qed.
  Lemma prod_chunks x (cs : list lit) : forall acc, fold_left fmul (map (monv x) cs) acc = acc * monv x (concat cs).
  Proof.
    induction cs as [|c r IH]; intros acc; cbn [map fold_left concat].
    - unfold monomial_value. cbn. ring.
    - rewrite IH. assert (E : forall a b, monv x (a ++ b) = monv x a * monv x b).
      { intros a b. unfold monomial_value. rewrite map_app. induction (map _ a) as [|y s IHs]; cbn [app fprod]; [ring | rewrite IHs; ring]. }
      rewrite E. ring.
  Qed.
  Lemma sum_chunks x (cs : list (list term)) : forall acc, fold_left fadd (map (val x) cs) acc = acc + val x (concat cs).
  Proof.
    induction cs as [|c r IH]; intros acc; cbn [map fold_left concat].
    - cbn. ring.
    - rewrite IH, val_app. ring.
  Qed.
  Variable chunks : forall A : Type, list A -> list (list A).
  Hypothesis Hchunks : forall A l, concat (chunks A l) = l.
  Lemma in_chunks {A} (l c : list A) x : In c (chunks A l) -> In x c -> In x l.
  Proof. intros H1 H2. rewrite <- (Hchunks A l). apply in_concat. exists c. split; assumption. Qed.
  Lemma lit_evaluate_ok (pts : list K) l : (forall e, In e l -> (N.to_nat (fst e) < length pts)%nat) ->
    lit_evaluate K chunks pts l = Ret (monv (at_point K pts) l).
  Proof.
    intros H. unfold lit_evaluate. rewrite (map_out_ret _ (monv (at_point K pts))).
    - cbn [bind]. rewrite prod_chunks, Hchunks. f_equal. ring.
    - intros c Hc. apply lit_serial_ok. intros e He. apply H. apply (in_chunks l c); assumption.
  Qed.
  Lemma terms_serial_ok (pts : list K) ts : variables_below K (length pts) ts ->
    terms_serial K chunks pts ts = Ret (val (at_point K pts) ts).
  Proof.
    unfold terms_serial. intros H.
    cut (forall acc : K, fold_out (fun acc (t : term) => bind (lit_evaluate K chunks pts (fst t)) (fun v => Ret (acc + snd t * v))) ts acc =
      Ret (acc + val (at_point K pts) ts)).
    { intros C. rewrite C. f_equal. ring. }
    induction ts as [|t r IH]; intros acc; cbn [fold_out].
    - f_equal. cbn. ring.
    - rewrite lit_evaluate_ok by (intros e He; apply (H t e); [left; reflexivity | exact He]). cbn [bind].
      rewrite IH by (intros t' e Ht; apply H; right; exact Ht). f_equal. rewrite val_cons. ring.
  Qed.
  Lemma evaluate_ok n ts (pts : list K) : (length pts <= n)%nat -> variables_below K (length pts) ts ->
    evaluate K chunks (mkpoly K (Some n) ts) pts = Ret (val (at_point K pts) ts).
  Proof.
    intros Hn Hv. unfold evaluate. cbn [num_vars MvSparseModel.terms].
    destruct (Nat.leb_spec (length pts) n); [| lia]. destruct ts as [|t r]; [reflexivity |].
    rewrite (map_out_ret _ (val (at_point K pts))).
    - cbn [bind]. rewrite sum_chunks, Hchunks. f_equal. ring.
    - intros c Hc. apply terms_serial_ok. intros t' e Ht He. apply (Hv t' e); [| exact He]. apply (in_chunks (t :: r) c); assumption.
  Qed.
  Lemma evaluate_abort n ts (pts : list K) : (n < length pts)%nat -> evaluate K chunks (mkpoly K (Some n) ts) pts = Abort.
  Proof. intros H. unfold evaluate. cbn [num_vars]. destruct (Nat.leb_spec (length pts) n); [lia | reflexivity]. Qed.
  (** A literal whose variable has no value is read outside the vector. *)
  Lemma serial_undef (pts : list K) l e : In e l -> (length pts <= N.to_nat (fst e))%nat -> lit_serial K pts l = Undef.
  Proof.
    unfold lit_serial. generalize (1 : K). induction l as [|e' r IH]; intros acc He Hl; [destruct He |]. cbn [fold_out].
    destruct He as [-> | He].
    - apply nth_error_None in Hl. rewrite Hl. reflexivity.
    - destruct (nth_error pts (N.to_nat (fst e'))); cbn [bind]; [apply IH; assumption | reflexivity].
  Qed.

  (** ** Compact. *)
  Definition small (ts : list term) : Prop := forall t, In t ts -> (total_degree (fst t) < 2 ^ 31)%Z.
  Lemma merge_value x rest : forall w, small (w :: rest) ->
    val x (merge_loop K w rest) = val x (w :: rest) /\ small (merge_loop K w rest).
  Proof.
    induction rest as [|r rest IH]; intros w Hs; cbn [merge_loop].
    - split; [reflexivity | exact Hs].
    - assert (Hw := Hs w (or_introl eq_refl)). assert (Hr := Hs r (or_intror (or_introl eq_refl))).
      destruct (lit_eqb (fst w) (fst r)) eqn:E.
      + apply lit_eqb_same in E; [| assumption | assumption].
        destruct (IH (fst w, snd w + snd r)) as [I1 I2].
        { intros t [<- | Ht]; [exact Hw | apply Hs; right; right; exact Ht]. }
        split; [| exact I2]. rewrite I1, !val_cons. cbn [fst snd]. rewrite (mon_same x _ _ E). ring.
      + destruct (IH r) as [I1 I2]; [intros t Ht; apply Hs; right; exact Ht |].
        split; [rewrite (val_cons x w), I1; reflexivity |].
        intros t [<- | Ht]; [exact Hw | apply I2, Ht].
  Qed.
  Lemma constants_value x ts : forall c, small ts ->
    fst (take_constants K c ts) + val x (snd (take_constants K c ts)) = c + val x ts.
  Proof.
    induction ts as [|t r IH]; intros c Hs; cbn [take_constants]; [reflexivity |].
    assert (Ht := Hs t (or_introl eq_refl)).
    destruct (Z.eqb_spec (lit_degree (fst t)) 0) as [E | E]; [| reflexivity].
    rewrite lit_degree_ok in E by assumption.
    rewrite IH by (intros t' Ht'; apply Hs; right; exact Ht'). rewrite val_cons, mon_const by exact E. ring.
  Qed.
  Lemma filter_value x ts : val x (filter (fun t : term => negb (feqb (snd t) 0)) ts) = val x ts.
  Proof.
    induction ts as [|t r IH]; [reflexivity |]. cbn [filter]. destruct (feqb (snd t) 0) eqn:E; cbn [negb].
    - apply feqb_eq in E. rewrite IH, val_cons, E. ring.
    - rewrite !val_cons, IH. reflexivity.
  Qed.
  Lemma compact_ok ts : ts <> [] -> small ts -> exists ts', compact K ts = Ret ts' /\ (forall x, val x ts' = val x ts) /\
    (forall t, In t ts' -> snd t <> 0).
  Proof.
    intros Hne Hs. destruct ts as [|w rest]; [contradiction |]. unfold compact.
    destruct (take_constants K 0 (merge_loop K w rest)) as [c r] eqn:E. eexists. split; [reflexivity |]. split.
    - intros x. rewrite filter_value. destruct (merge_value x rest w Hs) as [M1 M2].
      pose proof (constants_value x (merge_loop K w rest) 0 M2) as C. rewrite E, M1 in C. cbn [fst snd] in C.
      rewrite (val_cons x (term_constant K c)). cbn [term_constant fst snd]. rewrite mon_const by reflexivity.
      transitivity (c + val x r); [ring |]. rewrite C. ring.
    - intros t Ht. apply filter_In in Ht. destruct Ht as [_ Ht]. apply negb_true_iff, feqb_neq in Ht. exact Ht.
  Qed.

  (** ** Addition. *)
  Definition signed (neg : bool) (v : K) : K := if neg then - v else v.
  Lemma sgn_val x neg t : snd (sgn K neg t) * monv x (fst (sgn K neg t)) = signed neg (snd t * monv x (fst t)).
  Proof. destruct neg; cbn [sgn signed term_neg fst snd]; ring. Qed.
  Lemma signed_add neg (u v : K) : signed neg (u + v) = signed neg u + signed neg v.
  Proof. destruct neg; cbn [signed]; ring. Qed.
  Definition clear (a b : list term) : Prop := forall ta tb, In ta a -> In tb b ->
    lit_lt (fst ta) (fst tb) = Ret false -> lit_lt (fst tb) (fst ta) = Ret false -> same_monomial (fst ta) (fst tb).

  Lemma sgn_fst neg t : fst (sgn K neg t) = fst t.
  Proof. destruct neg; reflexivity. Qed.
  Lemma loop_nil neg tb b : add_loop K neg [] (tb :: b) = cons_out K (sgn K neg tb) (add_loop K neg [] b).
  Proof. reflexivity. Qed.
  Lemma loop_cons neg ta a tb b : add_loop K neg (ta :: a) (tb :: b) =
    bind (lit_lt (fst ta) (fst tb)) (fun lt =>
    if lt then cons_out K ta (add_loop K neg a (tb :: b))
    else
      bind (lit_lt (fst tb) (fst ta)) (fun gt =>
      if gt then cons_out K (sgn K neg tb) (add_loop K neg (ta :: a) b)
      else
        let coeff := if neg then snd ta - snd tb else snd ta + snd tb in
        if negb (feqb coeff 0) then cons_out K (fst ta, coeff) (add_loop K neg a b)
        else add_loop K neg a b)).
  Proof. reflexivity. Qed.
  Lemma loop_ok neg : forall a b, proper K a -> proper K b -> clear a b ->
    exists c, add_loop K neg a b = Ret c /\ (forall x, val x c = val x a + signed neg (val x b)) /\ small c.
  Proof.
    assert (Z0 : forall x, val x [] + signed neg (val x []) = val x []) by (intros x; destruct neg; cbn; ring).
    induction a as [|ta a IHa].
    - induction b as [|tb b IHb]; intros Ha Hb Hc.
      + exists []. split; [reflexivity |]. split; [intros x; symmetry; apply Z0 | intros t []].
      + destruct IHb as (c & E & V & S); [exact Ha | intros t Ht; apply Hb; right; exact Ht | intros s t []|].
        exists (sgn K neg tb :: c). split; [rewrite loop_nil, E; reflexivity |].
        split.
        * intros x. rewrite val_cons, sgn_val, V, (val_cons x tb b), signed_add. cbn. ring.
        * intros t [<- | Ht]; [rewrite sgn_fst; apply (Hb tb); left; reflexivity | apply S, Ht].
    - induction b as [|tb b IHb]; intros Ha Hb Hc.
      + destruct (IHa []) as (c & E & V & S); [intros t Ht; apply Ha; right; exact Ht | exact Hb | intros s t _ []|].
        exists (ta :: c). split; [cbn [add_loop]; rewrite E; reflexivity |]. split.
        * intros x. rewrite val_cons, V, (val_cons x ta a). ring.
        * intros t [<- | Ht]; [apply (Ha ta); left; reflexivity | apply S, Ht].
      + assert (Pa := Ha ta (or_introl eq_refl)). assert (Pb := Hb tb (or_introl eq_refl)).
        destruct (lit_lt_ret (fst ta) (fst tb)) as (lt & El); [apply Pa | apply Pb |].
        destruct (lit_lt_ret (fst tb) (fst ta)) as (gt & Eg); [apply Pb | apply Pa |].
        assert (Ha' : proper K a) by (intros t Ht; apply Ha; right; exact Ht).
        assert (Hb' : proper K b) by (intros t Ht; apply Hb; right; exact Ht).
        rewrite loop_cons, El. cbn [bind]. destruct lt.
        * destruct (IHa (tb :: b)) as (c & E & V & S); [exact Ha' | exact Hb | intros s t Hs Ht; apply Hc; [right; exact Hs | exact Ht] |].
          exists (ta :: c). rewrite E. split; [reflexivity |]. split.
          -- intros x. rewrite val_cons, V, (val_cons x ta a). ring.
          -- intros t [<- | Ht]; [apply Pa | apply S, Ht].
        * rewrite Eg. cbn [bind]. destruct gt.
          -- destruct IHb as (c & E & V & S); [exact Ha | exact Hb' | intros s t Hs Ht; apply Hc; [exact Hs | right; exact Ht] |].
             exists (sgn K neg tb :: c). rewrite E. split; [reflexivity |]. split.
             ++ intros x. rewrite val_cons, sgn_val, V, (val_cons x tb b), signed_add. ring.
             ++ intros t [<- | Ht]; [rewrite sgn_fst; apply Pb | apply S, Ht].
          -- assert (Sm := Hc ta tb (or_introl eq_refl) (or_introl eq_refl) El Eg).
             destruct (IHa b) as (c & E & V & S); [exact Ha' | exact Hb' | intros s t Hs Ht; apply Hc; right; assumption |].
             rewrite E. cbn zeta. set (k := if neg then snd ta - snd tb else snd ta + snd tb).
             assert (Ek : k = snd ta + signed neg (snd tb)) by (unfold k; destruct neg; cbn [signed]; ring).
             assert (Ev : forall x, k * monv x (fst ta) + val x c = val x (ta :: a) + signed neg (val x (tb :: b))).
             { intros x. rewrite V, Ek, !val_cons, signed_add, (mon_same x _ _ Sm). destruct neg; cbn [signed]; ring. }
             destruct (feqb k 0) eqn:Z; cbn [negb].
             ++ exists c. split; [reflexivity |]. split; [| exact S]. intros x. rewrite <- Ev. apply feqb_eq in Z. rewrite Z. ring.
             ++ exists ((fst ta, k) :: c). split; [reflexivity |]. split; [exact Ev |].
                intros t [<- | Ht]; [apply Pa | apply S, Ht].
  Qed.
  Lemma do_add_ok neg a b : proper K a -> proper K b -> clear a b ->
    match do_add K neg a b with
    | Ret c => (forall x, val x c = val x a + signed neg (val x b)) /\ (forall t, In t c -> snd t <> 0)
    | Undef => forall x, val x a + signed neg (val x b) = 0
    | Abort => False
    end.
  Proof.
    intros Ha Hb Hc. destruct (loop_ok neg a b Ha Hb Hc) as (c & E & V & S). unfold do_add. rewrite E. cbn [bind].
    destruct c as [|t r].
    - cbn [compact]. intros x. rewrite <- V. reflexivity.
    - destruct (compact_ok (t :: r)) as (c' & Ec & Vc & Nz); [discriminate | exact S |]. rewrite Ec.
      split; [intros x; rewrite Vc; apply V | exact Nz].
  Qed.
  Lemma univariate_clear a b : univariate K a -> univariate K b -> clear a b.
  Proof.
    intros Ha Hb ta tb Hta Htb. destruct (Ha ta Hta) as (v & e & ->), (Hb tb Htb) as (v' & e' & ->). apply single_same.
  Qed.
  (** p - p. *)
  Lemma loop_self a : (forall t, In t a -> fst t <> []) -> add_loop K true a a = Ret [].
  Proof.
    induction a as [|t r IH]; intros H; [reflexivity |]. rewrite loop_cons, lit_lt_irrefl by (apply H; left; reflexivity). cbn [bind].
    replace (snd t - snd t) with (0 : K) by ring. rewrite feqb_refl. cbn [negb].
    apply IH. intros; apply H; right; assumption.
  Qed.
End Values.
