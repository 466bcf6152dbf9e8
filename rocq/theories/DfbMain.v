(** The splines built from a derivative field (C111): interpolation, and fields holding any data. *)
From Coq Require Import ZifyBool.
From Verif Require Import DerivMain DerivRanges DfbSpec.
From Verif Require Export DfbProofs.
Open Scope Z_scope.

Lemma spline_interpolates {V S} f h fields h' (m : store V) (D : table V) exec dflt nb
  (builder : builder_args V -> res S) (ev : S -> table V) s :
  wf_shape f -> dims f = df_dims -> nonempty f -> construct f h = (fields, h') -> stores f fields m D ->
  interpolating builder ev (phys f 1) (phys f 2) ->
  build f fields m exec dflt builder nb = Ok s ->
  forall k i l j, constrained (phys f 1) (phys f 2) nb k i l j -> ev s k i l j = D k i l j.
Proof.
  intros Hf Hd Hn C HS HB E k i l j (Hi & Hj & Hk & Hl & H1 & H2).
  pose proof (construct_fields _ _ _ _ C) as (HF & _). unfold build in E.
  destruct (unpack f fields m exec dflt nb) as [g| | |] eqn:Eu; try discriminate. cbn [bind] in E.
  destruct (unpack_inv f fields m _ Hf Hd HF exec dflt nb g Hn Eu) as [HP Hsp].
  destruct (unpack_ok f fields m _ Hf Hd HF exec dflt D nb Hn HS HP Hsp) as (g' & Eu' & T).
  assert (g' = g) by congruence. subst g'. destruct T.
  destruct (HB g s E) as (B0 & B1 & B2 & B3 & B4 & B5 & B6 & B7 & B8).
  destruct doc_function as (_ & _ & T0). destruct doc_deriv1_min as (A1 & _ & T1).
  destruct doc_deriv1_max as (A2 & _ & T2). destruct doc_deriv2_min as (_ & A3 & T3).
  destruct doc_deriv2_max as (_ & A4 & T4). destruct doc_min_min as (A5 & A5' & T5).
  destruct doc_max_min as (A6 & A6' & T6). destruct doc_min_max as (A7 & A7' & T7).
  destruct doc_max_max as (A8 & A8' & T8).
  rewrite ?A1, ?A2, ?A3, ?A4, ?A5, ?A5', ?A6, ?A6', ?A7, ?A7', ?A8, ?A8' in *.
  assert (Ho : forall n q, q <> 0 -> 0 <= q -> q <= Z.of_nat n -> in_range (orders n) q).
  { intros n q ? ? ?. apply orders_in. lia. }
  destruct (Z.eq_dec k 0) as [->|Nk]; destruct (Z.eq_dec l 0) as [->|Nl].
  - apply (B0 i j); auto.
  - destruct H2 as [?|[[-> ?]|[-> ?]]]; [lia| |]; [apply (B3 i l)|apply (B4 i l)]; auto.
  - destruct H1 as [?|[[-> ?]|[-> ?]]]; [lia| |]; [apply (B1 k j)|apply (B2 k j)]; auto.
  - destruct H1 as [?|[[-> ?]|[-> ?]]]; [lia| |]; (destruct H2 as [?|[[-> ?]|[-> ?]]]; [lia| |]).
    + apply (B5 k l); auto.
    + apply (B7 k l); auto.
    + apply (B6 k l); auto.
    + apply (B8 k l); auto.
Qed.

(** A derivative field can hold any data: for every table there is a content of the memory which stores it *)
Definition candidates (f : shape) : list (Z * Z * (Z * Z)) :=
  let os := map Z.of_nat (seq 0 (Datatypes.S (nderivs f))) in
  let ps d := (indices (phys f d) ++
    map (fun k => s_front (dslice f d) + Z.of_nat k * Z.of_nat (s_stride (dslice f d))) (seq 0 (s_ext (dslice f d))))%list in
  list_prod (list_prod os (ps 1%nat)) (list_prod os (ps 2%nat)).

Definition cell_eqb (x : res (nat * Z)) (b : nat) (o : Z) : bool :=
  match x with Ok (b', o') => Nat.eqb b' b && Z.eqb o' o | _ => false end.
Definition holding {V} (f : shape) (fields : list view) (D : table V) (d0 : V) : store V := fun b o =>
  match find (fun q => let '(k, i, (l, j)) := q in
     cell_eqb (call f fields (fun t => Some (full k i l j t))) b o) (candidates f) with
  | Some (k, i, (l, j)) => D k i l j
  | None => d0
  end.

Lemma holding_stores {V} f h fields h' (D : table V) d0 : wf_shape f -> dims f = df_dims ->
  construct f h = (fields, h') -> stores f fields (holding f fields D d0) D.
Proof.
  intros Hf Hd C idx c Ha Ec. pose proof (construct_fields _ _ _ _ C) as (HF & _).
  set (k := idx (Der 1)). set (i := idx (Phys 1)). set (l := idx (Der 2)). set (j := idx (Phys 2)).
  assert (Hsame : forall t, In t (dims f) -> full k i l j t = idx t).
  { intros t Ht. rewrite Hd in Ht. destruct Ht as [<-|[<-|[<-|[<-|[]]]]]; reflexivity. }
  assert (Ha' : accepted f (full k i l j)).
  { destruct Ha as [Ha1 Ha2]. split.
    - intros d Hin. rewrite Hsame by auto. now apply Ha1.
    - intros d Hin. rewrite (Hsame (Phys d)) by auto. destruct (Ha2 d Hin) as [(I1 & N & ?)|[N ?]].
      + left. split; auto. rewrite Hsame by auto. auto.
      + right. split; auto. intros [I1 N1]. apply N. split; auto. now rewrite <- Hsame. }
  assert (Hc : completes f (fun t => Some (idx t)) (full k i l j)).
  { intros t Ht. left. now rewrite Hsame. }
  assert (Ec' : call f fields (fun t => Some (full k i l j t)) = Ok c).
  { destruct (call_accepted f Hf _ _ HF _ _ Hc Ha') as (ks & Hp & Hb & E).
    destruct (call_accepted f Hf _ _ HF (fun t => Some (full k i l j t)) (full k i l j) (fun t _ => or_introl eq_refl) Ha')
      as (ks' & Hp' & Hb' & E').
    assert (EE : ks = ks').
    { clear -Hp Hp'. unfold posns in *. revert ks' Hp'. induction Hp; intros ks' Hp'; inversion Hp'; subst; auto.
      f_equal; [congruence|auto]. }
    congruence. }
  unfold holding. destruct c as [b o]. cbn [fst snd].
  destruct (find _ (candidates f)) as [[[k' i'] [l' j']]|] eqn:Ef.
  - apply find_some in Ef. destruct Ef as [_ Ef]. unfold cell_eqb in Ef.
    destruct (call f fields (fun t => Some (full k' i' l' j' t))) as [[b' o']| | |] eqn:E2; try discriminate.
    assert (b' = b /\ o' = o) as [-> ->] by lia.
    pose proof (call_inj f Hf _ _ HF (full k' i' l' j') (full k i l j) _ _ (b, o)
      (fun t _ => or_introl eq_refl) (fun t _ => or_introl eq_refl) E2 Ec') as Hs.
    unfold same_idx in Hs. rewrite Hd in Hs.
    pose proof (Hs (Der 1) ltac:(cbn; auto)). pose proof (Hs (Phys 1) ltac:(cbn; auto)).
    pose proof (Hs (Der 2) ltac:(cbn; auto)). pose proof (Hs (Phys 2) ltac:(cbn; auto)).
    cbn [full] in *. congruence.
  - exfalso. pose proof (find_none _ _ Ef (k, i, (l, j))) as Hno. cbv beta iota in Hno.
    rewrite Ec' in Hno. unfold cell_eqb in Hno. rewrite Nat.eqb_refl, Z.eqb_refl in Hno.
    assert (Hin : In (k, i, (l, j)) (candidates f)); [|specialize (Hno Hin); discriminate].
    apply accepted_full in Ha'; auto. destruct Ha' as (K & L & P1 & P2). unfold candidates. cbv zeta.
    assert (Ho : forall q, 0 <= q <= Z.of_nat (nderivs f) -> In q (map Z.of_nat (seq 0 (Datatypes.S (nderivs f))))).
    { intros q Hq. apply in_map_iff. exists (Z.to_nat q). split; [lia|]. apply in_seq. lia. }
    assert (Hp : forall d q (P Q : Prop), (P /\ in_slice (dslice f d) q) \/ (Q /\ in_range (phys f d) q) ->
      In q (indices (phys f d) ++ map (fun k => s_front (dslice f d) + Z.of_nat k * Z.of_nat (s_stride (dslice f d))) (seq 0 (s_ext (dslice f d))))%list).
    { intros d q P Q [[_ (n & Hn & ->)]|[_ H]]; apply in_or_app.
      - right. apply in_map_iff. exists n. split; auto. apply in_seq. lia.
      - left. now apply in_indices. }
    apply in_prod; apply in_prod; eauto.
Qed.
