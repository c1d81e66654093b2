(** The matrices do not depend on the mode or on the assigned values. *)
From Coq Require Import List Bool Arith Lia.
From Verif Require Import Field R1csModel R1csSpec R1csProof4.
Import ListNotations.
Open Scope fld_scope.
Open Scope nat_scope.

Section Modes.
  Variable K : fld.
  Implicit Types (s t : cs K) (st tt : tstate K).

  Definition alike s t : Prop :=
    should_construct s = true /\ should_construct t = true /\ goal_weight s = goal_weight t /\ n_inst s = n_inst t /\ n_wit s = n_wit t /\ n_con s = n_con t /\
    n_lc s = n_lc t /\ lc_map s = lc_map t /\ a_con s = a_con t /\ b_con s = b_con t /\ c_con s = c_con t.
  Lemma alike_mk (u c g : bool) ni nw nc nl (i w : list K) m a b d (u' c' : bool) (i' w' : list K) :
    (if u then true else c) = true -> (if u' then true else c') = true ->
    alike (mk_cs u c g ni nw nc nl i w m a b d) (mk_cs u' c' g ni nw nc nl i' w' m a b d).
  Proof. intros H1 H2. unfold alike, should_construct. cbn. repeat split; assumption. Qed.
  Ltac split_alike H s t :=
    destruct s as [su sc sg sni snw snc snl si sw sm sa sb sd], t as [tu tc tg tni tnw tnc tnl ti tw tm ta tb td];
    unfold alike, should_construct in H; cbn [setup construct goal_weight n_inst n_wit n_con n_lc inst wit lc_map a_con b_con c_con] in H;
    destruct H as (Hs & Ht & -> & -> & -> & -> & -> & -> & -> & -> & ->).

  Lemma alike_enforce s t a b c s' t' : alike s t -> enforce s a b c = Some s' -> enforce t a b c = Some t' -> alike s' t'.
  Proof.
    intros H. split_alike H s t. unfold enforce, should_construct, create_lc. cbn [setup construct goal_weight n_inst n_wit n_con n_lc inst wit lc_map a_con b_con c_con].
    rewrite Hs, Ht. intros [= <-] [= <-]. apply alike_mk; assumption.
  Qed.
  Lemma alike_synthesize calls calls' : same_circuit calls calls' -> forall s t s' t', alike s t -> synthesize s calls = Some s' -> synthesize t calls' = Some t' -> alike s' t'.
  Proof.
    induction 1 as [|c c' calls calls' Hc _ IH]; intros s t s' t' H; cbn [synthesize]; [intros [= <-] [= <-]; exact H|].
    destruct c as [v|v|l|x y z], c' as [v'|v'|l'|x' y' z']; cbn [same_call] in Hc; try discriminate Hc.
    - apply IH. split_alike H s t. unfold create_instance. cbn. apply alike_mk; assumption.
    - apply IH. split_alike H s t. unfold create_witness. cbn. apply alike_mk; assumption.
    - injection Hc as <-. apply IH. split_alike H s t. unfold create_lc. cbn. apply alike_mk; assumption.
    - injection Hc as <- <- <-. destruct (enforce s x y z) as [s1|] eqn:E1; [|discriminate]. destruct (enforce t x y z) as [t1|] eqn:E2; [|discriminate].
      apply IH. apply (alike_enforce s t x y z); assumption.
  Qed.
  Lemma alike_new new : forall s t s' t', alike s t -> enforce_new s new = Some s' -> enforce_new t new = Some t' -> alike s' t'.
  Proof.
    induction new as [|[l w] new IH]; intros s t s' t' H; cbn [enforce_new]; [intros [= <-] [= <-]; exact H|].
    destruct (enforce s l _ _) as [s1|] eqn:E1; [|discriminate]. destruct (enforce t l _ _) as [t1|] eqn:E2; [|discriminate].
    apply IH. apply (alike_enforce s t l [(1%fld, VOne)] [(1%fld, VWit w)]); assumption.
  Qed.
  Definition likewise st tt : Prop := t_map st = t_map tt /\ t_used st = t_used tt /\ t_nwit st = t_nwit tt /\ t_new st = t_new tt.
  Lemma likewise_entry sort o u u' i i' old e st tt st' tt' : likewise st tt ->
    transform_entry sort o u i old st e = Some st' -> transform_entry sort o u' i' old tt e = Some tt' -> likewise st' tt'.
  Proof.
    intros H. destruct st as [m us nw w nn], tt as [m' us' nw' w' nn']. unfold likewise in H. cbn [t_map t_used t_nwit t_new] in H. destruct H as (-> & -> & -> & ->).
    unfold transform_entry. cbn [t_map t_used t_nwit t_new t_wit]. destruct (inline_terms (snd e) [] m' us') as [[[out m1] used]|]; [|discriminate].
    destruct (nth_error used (fst e)) as [times|]; [|discriminate]. destruct (o && worthwhile times (length (deduplicate sort out)))%bool.
    - intros H1 H2. set (v1 := if u then Some [] else _) in H1. set (v2 := if u' then Some [] else _) in H2.
      destruct v1; [|discriminate H1]. destruct v2; [|discriminate H2]. injection H1 as <-. injection H2 as <-. repeat split.
    - intros [= <-] [= <-]. repeat split.
  Qed.
  Lemma likewise_loop sort o u u' i i' old todo : forall st tt st' tt', likewise st tt ->
    transform_loop sort o u i old todo st = Some st' -> transform_loop sort o u' i' old todo tt = Some tt' -> likewise st' tt'.
  Proof.
    induction todo as [|e todo IH]; intros st tt st' tt' H; cbn [transform_loop]; [intros [= <-] [= <-]; exact H|].
    destruct (transform_entry sort o u i old st e) as [s1|] eqn:E1; [|discriminate]. destruct (transform_entry sort o u' i' old tt e) as [t1|] eqn:E2; [|discriminate].
    apply IH. apply (likewise_entry sort o u u' i i' old e st tt); assumption.
  Qed.
  Lemma alike_finalize sort s t s' t' : alike s t -> finalize sort s = Some s' -> finalize sort t = Some t' -> alike s' t'.
  Proof.
    intros H. split_alike H s t. unfold finalize, should_construct. cbn [setup construct goal_weight n_inst n_wit n_con n_lc inst wit lc_map a_con b_con c_con].
    rewrite Hs, Ht. destruct (compute_times_used false tm) as [used|]; [|discriminate].
    destruct (transform_loop sort tg su si tm tm (mk_t [] used tnw sw [])) as [s1|] eqn:E1; [|discriminate].
    destruct (transform_loop sort tg tu ti tm tm (mk_t [] used tnw tw [])) as [t1|] eqn:E2; [|discriminate].
    destruct (likewise_loop sort tg su tu si ti tm tm (mk_t [] used tnw sw []) (mk_t [] used tnw tw []) s1 t1 (conj eq_refl (conj eq_refl (conj eq_refl eq_refl))) E1 E2) as (A & _ & B & C).
    rewrite A, B, C. apply alike_new. apply alike_mk; assumption.
  Qed.
  Lemma alike_matrices s t : alike s t -> to_matrices s = to_matrices t.
  Proof.
    intros H. split_alike H s t. unfold to_matrices, should_construct. cbn [setup construct goal_weight n_inst n_wit n_con n_lc inst wit lc_map a_con b_con c_con]. rewrite Hs, Ht. reflexivity.
  Qed.
End Modes.

Theorem same_matrices : forall (K : fld) (sort : lc K -> lc K) (setup setup' construct construct' goal : bool) (calls calls' : circuit K) s s' t t',
  same_circuit calls calls' -> setup = true \/ construct = true -> setup' = true \/ construct' = true ->
  synthesize (new_cs setup construct goal) calls = Some s -> finalize sort s = Some s' ->
  synthesize (new_cs setup' construct' goal) calls' = Some t -> finalize sort t = Some t' ->
  to_matrices s' = to_matrices t'.
Proof.
  intros K sort setup setup' construct construct' goal calls calls' s s' t t' HC H1 H2 E1 E2 E3 E4. apply alike_matrices.
  refine (alike_finalize K sort s t s' t' _ E2 E4). refine (alike_synthesize K calls calls' HC _ _ s t _ E1 E3). apply alike_mk.
  - destruct setup; [reflexivity|]. destruct H1; [discriminate|assumption].
  - destruct setup'; [reflexivity|]. destruct H2; [discriminate|assumption].
Qed.
