(** Proofs about derivative fields (C37): raw memory regions, lifetime and copies. *)
From Verif Require Export DerivRanges.
From Coq Require Import ZifyBool Permutation.
Open Scope nat_scope.
Local Opaque Nat.div Nat.modulo Z.div Z.modulo.

(** ** Lifetime *)
Lemma remove_block_ok p n : forall l, NoDup (map fst l) -> In (p, n) l ->
  exists l', remove_block p n l = Some l' /\ Permutation l ((p, n) :: l').
Proof.
  induction l as [|[q m] l IH]; intros Hn Hi; [destruct Hi|]. simpl in *. inversion Hn; subst.
  destruct (Nat.eqb_spec q p) as [->|Hne].
  - destruct Hi as [E|Hi].
    + assert (m = n) by congruence. subst. rewrite Nat.eqb_refl. eauto.
    + exfalso. apply H1. apply in_map_iff. exists (p, n). auto.
  - destruct Hi as [E|Hi]; [congruence|]. destruct (IH H2 Hi) as (l' & -> & HP). eexists. split; eauto.
    rewrite HP. apply perm_swap.
Qed.

Lemma deallocate_ok h p n rest : NoDup (map fst (h_live h)) -> Permutation (h_live h) ((p, n) :: rest) ->
  exists h', deallocate h p n = Ok h' /\ h_next h' = h_next h /\ Permutation (h_live h') rest /\
             NoDup (map fst (h_live h')).
Proof.
  intros Hn HP. unfold deallocate.
  destruct (remove_block_ok p n (h_live h) Hn) as (l' & -> & HP').
  { eapply Permutation_in; [symmetry; exact HP|]. simpl; auto. }
  eexists. split; [reflexivity|]. simpl. split; auto. split.
  - apply (Permutation_cons_inv (a := (p, n))). now rewrite <- HP', HP.
  - apply (Permutation_map fst) in HP'. apply (Permutation_NoDup HP') in Hn. now inversion Hn.
Qed.

Lemma free_chunks_ok f fields rest : forall l h,
  (forall a, In a l -> exists v, rd fields (Z.of_nat a) = Ok v) ->
  NoDup (map fst (h_live h)) ->
  Permutation (h_live h)
    (map (fun a => (match rd fields (Z.of_nat a) with Ok v => v_block v | _ => 0 end, alloc_size f a)) l ++ rest) ->
  exists h', free_chunks f fields h l = Ok h' /\ h_next h' = h_next h /\ Permutation (h_live h') rest /\
             NoDup (map fst (h_live h')).
Proof.
  induction l as [|a l IH]; intros h Hv Hn HP; simpl.
  - exists h. auto.
  - destruct (Hv a) as [v Ev]; [simpl; auto|]. rewrite Ev. cbn [bind].
    simpl in HP. rewrite Ev in HP.
    destruct (deallocate_ok h _ _ _ Hn HP) as (h1 & -> & E1 & HP1 & Hn1). cbn [bind].
    destruct (IH h1) as (h2 & E2 & E3 & HP2 & Hn2); auto. { intros; apply Hv; simpl; auto. }
    exists h2. repeat split; auto. congruence.
Qed.

Definition owned (o : shape * list view) : list (nat * nat) :=
  map (fun a => (match rd (snd o) (Z.of_nat a) with Ok v => v_block v | _ => 0 end, alloc_size (fst o) a))
      (seq 0 (n_fields (fst o))).
Definition life_inv (st : heap * list (shape * list view)) : Prop :=
  Permutation (h_live (fst st)) (flat_map owned (snd st)) /\
  NoDup (map fst (h_live (fst st))) /\
  (forall b n, In (b, n) (h_live (fst st)) -> b < h_next (fst st)) /\
  (forall o, In o (snd st) -> length (snd o) = n_fields (fst o)).

Lemma fields_owned f p fields : fields_at f p fields ->
  owned (f, fields) = map (fun a => (p + a, alloc_size f a)) (seq 0 (n_fields f)).
Proof.
  intros HF. unfold owned. cbn [fst snd]. apply map_ext_in. intros a Ha. apply in_seq in Ha.
  rewrite (rd_fields f p fields HF) by lia. reflexivity.
Qed.

Lemma remove_nth_perm {A} i (l : list A) x : nth_error l i = Some x -> Permutation l (x :: remove_nth i l).
Proof.
  revert i. induction l as [|y l IH]; intros [|i] H; simpl in H; try discriminate.
  - injection H as <-. reflexivity.
  - unfold remove_nth. cbn [firstn skipn app]. specialize (IH i H). unfold remove_nth in IH.
    rewrite IH at 1. apply perm_swap.
Qed.

Lemma flat_map_perm {A B} (g : A -> list B) l l' : Permutation l l' -> Permutation (flat_map g l) (flat_map g l').
Proof.
  induction 1; simpl; auto.
  - now apply Permutation_app_head.
  - rewrite !app_assoc. apply Permutation_app_tail, Permutation_app_comm.
  - etransitivity; eauto.
Qed.

Lemma life_step_inv st op : life_inv st -> exists st', life_step st op = Ok st' /\ life_inv st'.
Proof.
  destruct st as [h objs]. intros (HP & Hn & Hlt & Hlen). cbn [fst snd] in *. destruct op as [f|i]; simpl.
  - destruct (construct f h) as [vs h'] eqn:E. eexists. split; [reflexivity|].
    pose proof (construct_fields f h vs h' E) as (HF & Hnx & Hlive).
    pose proof (init_chunks f _ _ _ _ _ E) as (_ & _ & HL).
    assert (HL' : Permutation (h_live h') (owned (f, vs) ++ h_live h)).
    { rewrite HL, (fields_owned f (h_next h) vs HF). apply Permutation_app_tail.
      rewrite <- Permutation_rev. rewrite map_ext with (g := fun a => (h_next h + a, alloc_size f a)); auto.
      intros a. f_equal. lia. }
    split; [|split; [|split]]; cbn [fst snd].
    + rewrite HL', flat_map_app. cbn [flat_map]. rewrite app_nil_r, HP. apply Permutation_app_comm.
    + eapply Permutation_NoDup; [apply Permutation_map; symmetry; exact HL'|].
      rewrite map_app, (fields_owned f (h_next h) vs HF), map_map. cbn [fst].
      assert (G : forall l, NoDup l -> (forall a, In a l -> True) -> NoDup (map (fun a => h_next h + a) l ++ map fst (h_live h))).
      { induction l as [|a l IH]; intros Hl _; simpl; auto. inversion Hl; subst. constructor.
        - rewrite in_app_iff, !in_map_iff. intros [(y & Ey & Hy)|((b, n) & Eb & Hb)].
          + assert (y = a) by lia. subst. tauto.
          + apply Hlt in Hb. simpl in Eb. lia.
        - apply IH; auto. }
      apply G; auto. apply seq_NoDup.
    + intros b n Hb. apply Hlive in Hb. destruct Hb as [Hb|(a & Ha & -> & _)]; [apply Hlt in Hb|]; lia.
    + intros o Ho. apply in_app_iff in Ho. destruct Ho as [Ho|[<-|[]]]; auto. cbn [fst snd].
      rewrite HF, map_length, seq_length. reflexivity.
  - destruct (nth_error objs i) as [[f vs]|] eqn:Ei.
    2:{ eexists. split; [reflexivity|]. repeat split; auto. }
    assert (Hl : length vs = n_fields f) by (apply (Hlen (f, vs)); eapply nth_error_In; eauto).
    pose proof (remove_nth_perm _ _ _ Ei) as Hperm.
    destruct (free_chunks_ok f vs (flat_map owned (remove_nth i objs)) (seq 0 (n_fields f)) h)
      as (h' & E & Hnx & HP' & Hn'); auto.
    { intros a Ha. apply in_seq in Ha. apply rd_ok. lia. }
    { rewrite HP. rewrite (flat_map_perm owned _ _ Hperm). reflexivity. }
    unfold destroy. rewrite E. cbn [bind]. eexists. split; [reflexivity|].
    split; [|split; [|split]]; cbn [fst snd]; auto.
    + intros b n Hb. rewrite Hnx. apply (Hlt b n). eapply Permutation_in; [symmetry; exact HP|].
      eapply Permutation_in; [symmetry; apply (flat_map_perm owned _ _ Hperm)|].
      cbn [flat_map]. apply in_app_iff. right. eapply Permutation_in; eauto.
    + intros o Ho. apply Hlen. eapply Permutation_in; [symmetry; exact Hperm|]. simpl; auto.
Qed.

Lemma life_run_inv ops : forall st, life_inv st -> exists st', life_run st ops = Ok st' /\ life_inv st'.
Proof.
  induction ops as [|op r IH]; intros st H; simpl; eauto.
  destruct (life_step_inv st op H) as (st1 & -> & H1). cbn [bind]. apply IH; auto.
Qed.

Lemma life_empty : life_inv (Heap 0 [], []).
Proof. split; [|split; [|split]]; simpl; try constructor; intros; tauto. Qed.

Lemma life_safe ops : exists h objs, life_run (Heap 0 [], []) ops = Ok (h, objs) /\
  (objs = [] -> h_live h = []).
Proof.
  destruct (life_run_inv ops _ life_empty) as ([h objs] & E & (HP & _)). exists h, objs. split; auto.
  intros ->. simpl in HP. apply Permutation_sym, Permutation_nil in HP. auto.
Qed.

(** ** Copies *)
Lemma flat_map_const {A B} (l : list A) (g : A -> list B) (k : list B) :
  (forall x, In x l -> g x = k) -> length (flat_map g l) = length l * length k.
Proof.
  induction l as [|x l IH]; intros H; simpl; auto. rewrite app_length, H by (simpl; auto).
  rewrite IH; auto. intros; apply H; simpl; auto.
Qed.

Lemma offsets_shift ds : forall off c, offsets (off + c) ds = map (fun o => (o + c)%Z) (offsets off ds).
Proof.
  induction ds as [|[e st] ds IH]; intros off c; simpl; auto.
  induction (seq 0 e) as [|k l IHl]; simpl; auto. rewrite map_app, <- IHl, <- IH.
  f_equal. f_equal. lia.
Qed.

Lemma offsets_right es : offsets 0 (layout_right es) = map Z.of_nat (seq 0 (prod es)).
Proof.
  induction es as [|e es IH]; simpl; auto. fold (prod es). rewrite prod_cons.
  assert (G : forall n s, flat_map (fun k => offsets (Z.of_nat k * Z.of_nat (prod es)) (layout_right es)) (seq s n)
              = map Z.of_nat (seq (s * prod es) (n * prod es))).
  { induction n as [|n IHn]; intros s; [reflexivity|]. cbn [seq flat_map].
    rewrite IHn. replace (S n * prod es) with (prod es + n * prod es) by lia.
    rewrite seq_app, map_app. f_equal.
    - replace (Z.of_nat s * Z.of_nat (prod es))%Z with (0 + Z.of_nat (s * prod es))%Z by lia.
      rewrite offsets_shift, IH, map_map.
      replace (seq (s * prod es) (prod es)) with (map (fun x => s * prod es + x) (seq 0 (prod es))).
      + rewrite map_map. apply map_ext. intros; lia.
      + assert (Gs : forall m z a, map (fun x => a + x) (seq z m) = seq (a + z) m).
        { induction m as [|m IHm]; intros z a; simpl; auto. rewrite IHm. do 2 f_equal. lia. }
        rewrite Gs. f_equal. lia.
    - do 2 f_equal. lia. }
  apply (G e 0).
Qed.

Lemma copy_fold {V} (bd bs : nat) (m : store V) (l : list Z) : forall m0,
  let m' := fold_left (fun m' (q : Z * Z) => upd_cell m' bd (fst q) (m bs (snd q))) (combine l l) m0 in
  (forall o, In o l -> m' bd o = m bs o) /\
  (forall b o, ~ (b = bd /\ In o l) -> m' b o = m0 b o).
Proof.
  induction l as [|x l IH]; intros m0; simpl.
  - split; [intros ? []|auto].
  - destruct (IH (upd_cell m0 bd x (m bs x))) as [H1 H2]. simpl in H1, H2. split.
    + intros o Ho. destruct (in_dec Z.eq_dec o l) as [Hl|Hl]; [auto|].
      rewrite H2 by tauto. destruct Ho as [<-|Ho]; [|tauto]. unfold upd_cell.
      now rewrite Nat.eqb_refl, Z.eqb_refl.
    + intros b o H. rewrite H2 by tauto. unfold upd_cell.
      destruct (Nat.eqb_spec b bd) as [->|]; auto. destruct (Z.eqb_spec o x) as [->|]; auto.
      exfalso. apply H. auto.
Qed.

Section Copy.
  Context {V : Type}.
  Variables (f : shape) (pd ps : nat) (dst src : list view).
  Variables (HD : fields_at f pd dst) (HS : fields_at f ps src).
  Hypothesis Hdisj : pd + n_fields f <= ps \/ ps + n_fields f <= pd.

  Lemma deep_copy_one a (m : store V) : a < n_fields f ->
    exists m', deep_copy_view (make_internal_mdspan f (pd + a) a) (make_internal_mdspan f (ps + a) a) m = Ok m' /\
      (forall o, (0 <= o < Z.of_nat (alloc_size f a))%Z -> m' (pd + a) o = m (ps + a) o) /\
      (forall b o, ~ (b = pd + a /\ (0 <= o < Z.of_nat (alloc_size f a))%Z) -> m' b o = m b o).
  Proof.
    intros Ha. unfold deep_copy_view. destruct (list_eq_dec _ _ _) as [_|C]; [|destruct C; reflexivity].
    eexists. split; [reflexivity|]. unfold make_internal_mdspan. cbn [v_block v_off v_dims].
    change (map (get_mdspan_size f a) (dims f)) with (sizes f a).
    rewrite offsets_right, <- alloc_size_prod.
    destruct (copy_fold (pd + a) (ps + a) m (map Z.of_nat (seq 0 (alloc_size f a))) m) as [H1 H2].
    assert (Hin : forall o, In o (map Z.of_nat (seq 0 (alloc_size f a))) <-> (0 <= o < Z.of_nat (alloc_size f a))%Z).
    { intros o. rewrite in_map_iff. split.
      - intros (x & <- & Hx). apply in_seq in Hx. lia.
      - intros Ho. exists (Z.to_nat o). split; [lia|]. apply in_seq. lia. }
    split.
    - intros o Ho. apply H1. now apply Hin.
    - intros b o Hb. apply H2. now rewrite Hin.
  Qed.

  Lemma deepcopy_loop_ok : forall l (m : store V), NoDup l -> (forall a, In a l -> a < n_fields f) ->
    exists m', deepcopy_loop dst src m l = Ok m' /\
      (forall a o, In a l -> (0 <= o < Z.of_nat (alloc_size f a))%Z -> m' (pd + a) o = m (ps + a) o) /\
      (forall b o, (forall a, In a l -> b = pd + a -> ~ (0 <= o < Z.of_nat (alloc_size f a))%Z) -> m' b o = m b o).
  Proof.
    induction l as [|a l IH]; intros m Hn Hl; simpl.
    - exists m. repeat split; auto. intros ? ? [].
    - inversion Hn; subst.
      rewrite (rd_fields f pd dst HD), (rd_fields f ps src HS) by (apply Hl; simpl; auto). cbn [bind].
      destruct (deep_copy_one a m) as (m1 & -> & A1 & A2); [apply Hl; simpl; auto|]. cbn [bind].
      destruct (IH m1) as (m2 & -> & B1 & B2); auto. { intros; apply Hl; simpl; auto. }
      exists m2. split; auto. split.
      + intros a' o [<-|Ha] Ho.
        * rewrite B2; auto. intros a'' Ha'' E. assert (a'' = a) by lia. congruence.
        * rewrite B1 by auto. apply A2. intros [E _].
          assert (a < n_fields f) by (apply Hl; simpl; auto). assert (a' < n_fields f) by (apply Hl; simpl; auto).
          lia.
      + intros b o Hb. rewrite B2.
        * apply A2. intros [E Ho]. apply (Hb a); simpl; auto.
        * intros a' Ha E. apply Hb; simpl; auto.
  Qed.

  Lemma deepcopy_ok (m : store V) :
    exists m', deepcopy f dst src m = Ok m' /\
      (forall a o, a < n_fields f -> (0 <= o < Z.of_nat (alloc_size f a))%Z -> m' (pd + a) o = m (ps + a) o) /\
      (forall b o, ~ (pd <= b < pd + n_fields f) -> m' b o = m b o).
  Proof.
    destruct (deepcopy_loop_ok (seq 0 (n_fields f)) m) as (m' & E & H1 & H2).
    - apply seq_NoDup.
    - intros a Ha. apply in_seq in Ha. lia.
    - exists m'. split; auto. split.
      + intros a o Ha Ho. apply H1; auto. apply in_seq. lia.
      + intros b o Hb. apply H2. intros a Ha ->. apply in_seq in Ha. lia.
  Qed.
End Copy.

(** the cells reached through two objects of the same shape are in the same place of their blocks *)
Lemma call_same_place f p p' fields fields' idx c : wf_shape f -> fields_at f p fields -> fields_at f p' fields' ->
  call f fields (fun t => Some (idx t)) = Ok c ->
  exists a, a < n_fields f /\ (0 <= snd c < Z.of_nat (alloc_size f a))%Z /\ fst c = p + a /\
    call f fields' (fun t => Some (idx t)) = Ok (p' + a, snd c).
Proof.
  intros Hf HF HF' E.
  assert (Hc : completes f (fun t => Some (idx t)) idx) by (intros t _; auto).
  pose proof (call_ok_inv f Hf p fields HF _ _ _ Hc E) as Ha.
  destruct (call_accepted f Hf p fields HF _ _ Hc Ha) as (ks & P & B & E1).
  destruct (call_accepted f Hf p' fields' HF' _ _ Hc Ha) as (ks' & P' & B' & E2).
  rewrite (posns_unique f _ _ _ _ P' P) in E2.
  assert (Ec : c = (p + get_array_index f idx, enc (sizes f (get_array_index f idx)) ks)) by congruence.
  rewrite Ec. cbn [fst snd]. exists (get_array_index f idx). split; [now apply array_index_lt|].
  split; [rewrite alloc_size_prod; now apply enc_bounds|]. auto.
Qed.

Lemma deepcopy_reads {V} f h1 h2 fields1 fields2 h1' h2' (m : store V) : wf_shape f ->
  construct f h1 = (fields1, h1') -> construct f h2 = (fields2, h2') -> h_next h1' <= h_next h2 ->
  exists m1 m2, deepcopy f fields1 fields2 m = Ok m1 /\ deepcopy f fields2 fields1 m = Ok m2 /\
   forall idx, accepted f idx ->
   exists b1 o1 b2 o2, call f fields1 (fun t => Some (idx t)) = Ok (b1, o1) /\
                       call f fields2 (fun t => Some (idx t)) = Ok (b2, o2) /\
     m1 b1 o1 = m b2 o2 /\ m1 b2 o2 = m b2 o2 /\ m2 b2 o2 = m b1 o1 /\ m2 b1 o1 = m b1 o1.
Proof.
  intros Hf C1 C2 Hle.
  apply construct_fields in C1, C2. destruct C1 as (F1 & N1 & _), C2 as (F2 & N2 & _).
  assert (D1 : h_next h1 + n_fields f <= h_next h2 \/ h_next h2 + n_fields f <= h_next h1) by (left; lia).
  assert (D2 : h_next h2 + n_fields f <= h_next h1 \/ h_next h1 + n_fields f <= h_next h2) by (right; lia).
  destruct (deepcopy_ok f (h_next h1) (h_next h2) fields1 fields2 F1 F2 D1 m) as (m1 & E1 & A1 & A2).
  destruct (deepcopy_ok f (h_next h2) (h_next h1) fields2 fields1 F2 F1 D2 m) as (m2 & E2 & B1 & B2).
  exists m1, m2. split; auto. split; auto. intros idx Ha.
  assert (Hc : completes f (fun t => Some (idx t)) idx) by (intros t _; auto).
  destruct (call_accepted f Hf _ fields1 F1 _ _ Hc Ha) as (ks & _ & _ & Ec).
  destruct (call_same_place f _ (h_next h2) fields1 fields2 idx _ Hf F1 F2 Ec) as (a & Ha' & Ho & Ef & Ec').
  cbn [fst snd] in *. set (o1 := enc _ ks) in *. rewrite Ef in Ec.
  exists (h_next h1 + a), o1, (h_next h2 + a), o1. repeat split; auto.
  - apply A2. lia.
  - apply B2. lia.
Qed.


(** ** get_mdspan *)
Lemma sub_split {T} (s1 : T -> slicer) (g : T -> Z) l : forall ds off o1 ds1 o3,
  submdspan_dims off ds (map s1 l) = Ok (o1, ds1) ->
  submdspan_dims off ds (map At (map g l)) = Ok (o3, []) ->
  (forall t, In t l -> match s1 t with FullExtent => True | At k => g t = k | Pair a b => (a <= g t < b)%Z end) ->
  submdspan_dims o1 ds1
    (map At (flat_map (fun t => match s1 t with FullExtent => [g t] | At _ => [] | Pair a _ => [(g t - a)%Z] end) l))
  = Ok (o3, []).
Proof.
  induction l as [|t l IH]; intros [|[e st] ds] off o1 ds1 o3 H1 H3 Hs; simpl in H1, H3; try discriminate.
  - injection H1 as <- <-. simpl. auto.
  - pose proof (Hs t (or_introl eq_refl)) as Ht. cbn [flat_map].
    destruct ((0 <=? g t) && (g t <? Z.of_nat e))%Z eqn:Eg; [|discriminate].
    destruct (s1 t) as [|k|a b] eqn:Es; cbn [app map].
    + destruct (submdspan_dims off ds (map s1 l)) as [[o r]| | |] eqn:E; try discriminate. cbn [bind] in H1.
      injection H1 as <- <-. cbn [submdspan_dims]. rewrite Eg.
      eapply IH; [|exact H3|intros; apply Hs; simpl; auto]. now apply sub_shift_ok.
    + rewrite Ht in *. rewrite Eg in H1. eapply IH; eauto. intros; apply Hs; simpl; auto.
    + destruct (_ && _)%bool eqn:Eb; [|discriminate].
      destruct (submdspan_dims (off + a * Z.of_nat st) ds (map s1 l)) as [[o r]| | |] eqn:E; try discriminate.
      cbn [bind] in H1. injection H1 as <- <-. cbn [submdspan_dims].
      replace ((0 <=? g t - a) && (g t - a <? Z.of_nat (Z.to_nat (b - a))))%Z with true by lia.
      eapply IH; [|exact H3|intros; apply Hs; simpl; auto].
      replace (off + g t * Z.of_nat st)%Z with (off + a * Z.of_nat st + (g t - a) * Z.of_nat st)%Z by lia.
      now apply sub_shift_ok.
Qed.

Lemma get_mdspan_cells f p fields rg v idx : wf_shape f -> fields_at f p fields ->
  (forall d, rg (Phys d) = None) ->
  get_mdspan f fields rg = Ok v ->
  accepted f idx ->
  (forall d, In (Der d) (dims f) -> match rg (Der d) with Some r => in_range r (idx (Der d)) | None => idx (Der d) = 0%Z end) ->
  exists ks b o, Forall2 (position f rg idx) (filter (kept rg) (dims f)) ks /\
    submdspan v (map At ks) = Ok (View b o []) /\
    call f fields (fun t => Some (idx t)) = Ok (b, o).
Proof.
  intros Hf HF Hph H Hacc Hidx. unfold get_mdspan in H. cbn zeta in H.
  set (A := get_array_index f (fun t => match rg t with Some r => r_front r | None => 0%Z end)) in H.
  rewrite (rd_fields f p fields HF) in H by (apply array_index_lt; auto). cbn [bind] in H.
  destruct (map_res (get_slicer_for_range f rg A) (dims f)) as [ss| | |] eqn:Es; try discriminate. cbn [bind] in H.
  unfold submdspan, make_internal_mdspan in H. cbn [v_off v_dims v_block] in H. fold (sizes f A) in H.
  destruct (submdspan_dims 0 (layout_right (sizes f A)) ss) as [[o1 ds1]| | |] eqn:E1; try discriminate. cbn [bind] in H.
  match type of H with context [map_res ?G (dims f)] => destruct (map_res G (dims f)) as [ss'| | |] eqn:Es'; try discriminate end.
  cbn [bind v_off v_dims v_block] in H.
  destruct (submdspan_dims o1 ds1 ss') as [[o2 ds2]| | |] eqn:E2; try discriminate. cbn [bind] in H.
  assert (Ev : v = View (p + A) o2 ds2) by congruence. clear H.
  apply (map_res_inv _ FullExtent) in Es, Es'. destruct Es as [Es1 Es2], Es' as [Es1' Es2'].
  set (fr := fr_of f rg).
  set (gp := fun t => match ppair f A fr t with Ok q => q | _ => (0, 0)%Z end).
  assert (Hrgfr : forall t r, rg t = Some r -> rg t = Some (fr t)).
  { intros t r E. unfold fr, fr_of. now rewrite E. }
  assert (Hgp : forall t r, In t (dims f) -> rg t = Some r -> ppair f A fr t = Ok (fst (gp t), snd (gp t))).
  { intros t r Ht Er. destruct (Es1 t Ht) as [y Hy]. rewrite (slicer_ppair f fr) in Hy by eauto.
    unfold gp. destruct (ppair f A fr t) as [[? ?]| | |]; try discriminate. reflexivity. }
  set (s1 := fun t => match rg t with Some _ => Pair (fst (gp t)) (snd (gp t)) | None => FullExtent end).
  assert (Ess : ss = map s1 (dims f)).
  { rewrite Es2. apply map_ext_in. intros t Ht. unfold s1. destruct (rg t) as [r|] eqn:Er.
    - rewrite (slicer_ppair f fr) by eauto. rewrite (Hgp t r Ht Er). reflexivity.
    - unfold get_slicer_for_range. rewrite Er. reflexivity. }
  assert (Hbit0 : forall d, In (Der d) (dims f) -> rg (Der d) = None -> holds_deriv f A (Der d) = false).
  { intros d Hd E. unfold A. rewrite holds_array_index by auto. now rewrite E. }
  assert (Ess' : ss' = map (fun t => if implicit rg t then At 0 else FullExtent) (dims f)).
  { rewrite Es2'. apply map_ext_in. intros t Ht. unfold get_slicer_for_idx, implicit.
    destruct (rg t) as [r|] eqn:Er; auto. destruct t as [d|d]; cbn [is_deriv_dim]; auto.
    rewrite Hbit0 by auto. reflexivity. }
  rewrite Ess in E1. rewrite Ess' in E2.
  pose proof (sub_comp _ _ _ _ _ _ _ E1 E2) as E12.
  set (s12 := fun t => if implicit rg t then At 0 else s1 t).
  assert (Ecomp : comp (map s1 (dims f)) (map (fun t => if implicit rg t then At 0 else FullExtent) (dims f))
                  = map s12 (dims f)).
  { unfold s12. clear. induction (dims f) as [|t l IH]; [reflexivity|]. cbn [map]. unfold s1 at 1, implicit at 1 3.
    destruct (rg t) as [r|] eqn:Er.
    - cbn [comp]. rewrite IH. f_equal. unfold s1. now rewrite Er.
    - cbn [comp]. destruct (is_deriv_dim t); rewrite IH; f_equal. unfold s1. now rewrite Er. }
  rewrite Ecomp in E12.
  (* positions *)
  assert (Hpos : forall t, In t (dims f) -> is_deriv_dim t = true -> s12 t = At 0 \/
             exists r a b, rg t = Some r /\ s12 t = Pair a b /\ (0 <= a)%Z /\ ppair f A fr t = Ok (a, b)).
  { intros t Ht Hd. unfold s12, implicit. destruct (rg t) as [r|] eqn:Er.
    - right. exists r, (fst (gp t)), (snd (gp t)). split; auto. unfold s1. rewrite Er. split; auto.
      split; [|now apply (Hgp t r)].
      assert (G : forall l, In t l -> forall r2 ds off o,
                submdspan_dims off ds (map s12 l) = Ok (o, r2) -> (0 <= fst (gp t))%Z).
      2:{ eapply G; eauto. }
      clear - Er. induction l as [|u l IH]; [intros []|]. intros Ht r2 ds off o E.
      destruct ds as [|[e st] ds]; [discriminate|]. cbn [map submdspan_dims] in E.
      destruct Ht as [->|Ht].
      + unfold s12 at 1, implicit at 1, s1 at 1 in E. rewrite Er in E.
        match type of E with (if ?c then _ else _) = _ => destruct c eqn:Eb end; [|discriminate].
        apply andb_true_iff in Eb. destruct Eb as [Eb _]. apply andb_true_iff in Eb. destruct Eb as [Eb _].
        apply Z.leb_le in Eb. exact Eb.
      + destruct (s12 u).
        * destruct (submdspan_dims off ds _) as [[? ?]| | |] eqn:E'; try discriminate. eapply IH; eauto.
        * destruct (_ && _)%bool; [|discriminate]. eapply IH; eauto.
        * destruct (_ && _)%bool; [|discriminate].
          destruct (submdspan_dims _ ds _) as [[? ?]| | |] eqn:E'; try discriminate. eapply IH; eauto.
    - left. rewrite Hd. reflexivity. }
  assert (EA : get_array_index f idx = A).
  { symmetry. apply array_index_ext; auto. intros t Ht Hd. destruct t as [d|d]; [discriminate|].
    specialize (Hidx d Ht). destruct (Hpos (Der d) Ht Hd) as [E|(r & a & b & Er & _ & Ha & Ep)].
    - unfold s12, implicit, s1 in E. destruct (rg (Der d)); [discriminate|]. rewrite Hidx. tauto.
    - rewrite Er in *.
      assert (Efr : fr (Der d) = r) by (unfold fr, fr_of; now rewrite Er).
      rewrite <- Efr. eapply (front_zero f Hf rg A); eauto.
      + apply array_index_ext; auto. intros u Hu Hdu. destruct u; [discriminate|]. unfold fr_of.
        destruct (rg (Der d0)); simpl; tauto.
      + fold fr. now rewrite Efr. }
  assert (Hc : completes f (fun t => Some (idx t)) idx) by (intros t _; auto).
  destruct (call_accepted f Hf p fields HF _ _ Hc Hacc) as (ks & P & B & Ecall).
  rewrite EA in P, B, Ecall.
  set (g := fun t => match pos f A idx t with Ok k => k | _ => 0%Z end).
  assert (Eks : ks = map g (dims f)).
  { unfold posns in P. clear - P. induction P; simpl; auto. unfold g at 1. rewrite H. now f_equal. }
  assert (Hg : forall t, In t (dims f) -> pos f A idx t = Ok (g t)).
  { intros t Ht. destruct (Forall2_in_l _ _ _ _ P Ht) as [k Hk]. unfold g. now rewrite Hk. }
  pose proof (sub_at_right (sizes f A) ks 0%Z B) as E3. rewrite Eks, Z.add_0_l in E3.
  assert (Hder : forall d r, In (Der d) (dims f) -> rg (Der d) = Some r ->
             g (Der d) = (fst (gp (Der d)) + (idx (Der d) - r_front r))%Z /\
             (fst (gp (Der d)) <= g (Der d) < snd (gp (Der d)))%Z).
  { intros d r Hd Er. pose proof (Hidx d Hd) as Hi. rewrite Er in Hi.
    pose proof (Hgp _ _ Hd Er) as Ep.
    assert (Efr : fr (Der d) = r) by (unfold fr, fr_of; now rewrite Er).
    pose proof (ppair_pos f Hf A fr (Der d) _ _ idx Hd Ep) as Hq. rewrite Efr in Hq. specialize (Hq Hi).
    rewrite (Hg _ Hd) in Hq. injection Hq as Hq. split; auto.
    pose proof (ppair_ext f Hf A fr _ _ _ Hd Ep) as Hx. rewrite Efr in Hx. unfold in_range in Hi. lia. }
  pose proof (sub_split s12 g (dims f) _ _ _ _ _ E12 E3) as E4.
  eexists _, (p + A), _. split; [|split].
  3:{ rewrite Ecall, Eks. reflexivity. }
  2:{ rewrite Ev. unfold submdspan. cbn [v_off v_dims v_block]. rewrite E4; [reflexivity|].
      intros t Ht. unfold s12, implicit, s1. destruct (rg t) as [r|] eqn:Er.
      - destruct t as [d|d]; [rewrite Hph in Er; discriminate|]. apply (Hder d r); auto.
      - destruct t as [d|d]; cbn [is_deriv_dim]; auto. specialize (Hidx d Ht). rewrite Er in Hidx.
        pose proof (Hg _ Ht) as Hp. unfold pos in Hp. rewrite Hbit0, Hidx in Hp by auto. cbn in Hp. congruence. }
  assert (G : forall l, incl l (dims f) ->
    Forall2 (position f rg idx) (filter (kept rg) l)
      (flat_map (fun t => match s12 t with FullExtent => [g t] | At _ => [] | Pair a _ => [(g t - a)%Z] end) l)).
  { induction l as [|t l IH]; intros Hl; simpl; [constructor|].
    apply incl_cons_inv in Hl. destruct Hl as [Ht Hl]. specialize (IH Hl).
    unfold s12 at 1, implicit at 1, s1 at 1. destruct t as [d|d].
    - cbn [kept]. rewrite Hph. cbn [is_deriv_dim app]. constructor; auto.
      unfold position. pose proof (Hg _ Ht) as Hp. unfold pos in Hp.
      destruct (has_deriv f d) eqn:Ed; cbn [andb] in Hp.
      + pose proof (stride_pos f Hf d Ed) as Hst.
        assert (Hd : In (Der d) (dims f)) by now apply has_deriv_iff.
        rewrite <- EA, (holds_idx f Hf) in Hp by auto.
        destruct (Z.eqb_spec (idx (Der d)) 0) as [E0|E0]; cbn [negb] in Hp.
        * right. split; [tauto|]. assert (idx (Phys d) - r_front (phys f d) = g (Phys d))%Z by congruence. lia.
        * left. split; auto. split; auto. apply get_index_inv in Hp; tauto.
      + right. apply (has_deriv_false f Hf) in Ed. split; [tauto|].
        assert (idx (Phys d) - r_front (phys f d) = g (Phys d))%Z by congruence. lia.
    - cbn [kept]. destruct (rg (Der d)) as [r|] eqn:Er; cbn [is_deriv_dim app]; auto.
      constructor; auto. unfold position. exists r. split; auto. destruct (Hder d r Ht Er) as [-> _]. lia. }
  apply G, incl_refl.
Qed.
