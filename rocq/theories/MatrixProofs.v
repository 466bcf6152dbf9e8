From Verif Require Import Lib MatrixModel MatrixSpec.
From Coq Require Import ZifyBool.
Open Scope Z_scope.

(** ** flat offsets *)
Lemma flat_bound e0 e1 a b : 0 <= a < e0 -> 0 <= b < e1 -> 0 <= a * e1 + b < e0 * e1.
Proof. intros; nia. Qed.

Lemma flat_inj e1 a b a' b' :
  0 <= b < e1 -> 0 <= b' < e1 -> a * e1 + b = a' * e1 + b' -> a = a' /\ b = b'.
Proof. intros; assert (a = a') by nia; subst; lia. Qed.

Section Storage.
Variable A : Type.
Variable zero : A.
Variable tiny : A -> bool.

Notation matrix := (matrix A).
Notation get := (get A zero).
Notation set := (set A tiny).

Definition len (l : list A) : Z := Z.of_nat (length l).

Fixpoint wf (m : matrix) : Prop :=
  match m with
  | Dense _ n a => 0 < n /\ len a = n * n
  | Banded _ n kl ku q => 0 < n /\ 0 <= kl /\ 0 <= ku /\ len q = (2 * kl + ku + 1) * n
  | Pds _ n d l => 0 < n /\ len d = n /\ len l = n - 1
  | Corner _ n k g l l1 l2 q d =>
      0 < k <= n /\ wf q /\ get_size A q = n - k /\ len g = k * (n - k) /\
      l1 = n - k /\ l2 = k /\ len l = (n - k) * k /\ len d = k * k
  | Periodic _ n kl ku g l q d =>
      let k := Z.max kl ku in
      0 < k <= n /\ 0 <= kl /\ 0 <= ku /\ (2 * k < n \/ (2 * k = n /\ kl = k)) /\
      wf q /\ get_size A q = n - k /\ len g = k * (n - k) /\
      len l = (k + 1) * k /\ len d = k * k
  | Centre _ n top bottom g l q d =>
      let k := top + bottom in
      0 <= top /\ 0 <= bottom /\ 0 < k <= n /\ wf q /\ get_size A q = n - k /\
      len g = k * (n - k) /\ len l = (n - k) * k /\ len d = k * k
  end.

Lemma order_shape m : order (shape_of m) = get_size A m.
Proof. destruct m; reflexivity. Qed.

Lemma wr_ok' (b : list A) i x : 0 <= i < len b ->
  exists b', wr b i x = Ok b' /\ len b' = len b /\
             forall j, rd b' j = if j =? i then Ok x else rd b j.
Proof.
  intros H. destruct (wr b i x) as [b'| | |] eqn:E;
    try (rewrite wr_ok in E by (unfold len in H; lia); discriminate).
  exists b'; split; [reflexivity|split].
  - unfold len; rewrite (wr_length _ _ _ _ E); reflexivity.
  - intros j. destruct (j =? i) eqn:Ej.
    + apply Z.eqb_eq in Ej; subst. eapply rd_wr_eq; eauto.
    + eapply rd_wr_neq; eauto; lia.
Qed.

Lemma wr2_ok (b : list A) e0 e1 a c x :
  0 <= a < e0 -> 0 <= c < e1 -> len b = e0 * e1 ->
  exists b', wr2 A b e0 e1 a c x = Ok b' /\ len b' = len b /\
    forall a' c', rd2 A b' e0 e1 a' c' =
                  if same_pos a c a' c' then Ok x else rd2 A b e0 e1 a' c'.
Proof.
  intros Ha Hc Hl. pose proof (flat_bound e0 e1 a c Ha Hc) as Hb.
  destruct (wr_ok' b (a * e1 + c) x) as [b' [E [L R]]]; [lia|].
  exists b'. unfold wr2, rd2, same_pos.
  replace ((0 <=? a) && (a <? e0) && (0 <=? c) && (c <? e1))%bool with true by lia.
  split; [exact E|split; [exact L|]].
  intros a' c'. destruct ((0 <=? a') && (a' <? e0) && (0 <=? c') && (c' <? e1))%bool eqn:G.
  - rewrite R. destruct (a' * e1 + c' =? a * e1 + c) eqn:Q.
    + assert (a' = a /\ c' = c) as [-> ->] by (apply (flat_inj e1); lia).
      rewrite !Z.eqb_refl; reflexivity.
    + destruct ((a =? a') && (c =? c'))%bool eqn:Q2; [|reflexivity].
      assert (a = a' /\ c = c') as [-> ->] by lia. lia.
  - destruct ((a =? a') && (c =? c'))%bool eqn:Q2; [|reflexivity].
    assert (a = a' /\ c = c') as [-> ->] by lia. lia.
Qed.

Lemma rd_tot (b : list A) i : 0 <= i < len b -> exists x, rd b i = Ok x.
Proof. intros; apply rd_ok; unfold len in *; lia. Qed.

Lemma rd2_tot (b : list A) e0 e1 a c :
  0 <= a < e0 -> 0 <= c < e1 -> len b = e0 * e1 -> exists x, rd2 A b e0 e1 a c = Ok x.
Proof.
  intros Ha Hc Hl; unfold rd2.
  replace ((0 <=? a) && (a <? e0) && (0 <=? c) && (c <? e1))%bool with true by lia.
  apply rd_tot. pose proof (flat_bound e0 e1 a c Ha Hc); lia.
Qed.

Definition inr (m : matrix) (i j : Z) : Prop :=
  0 <= i < get_size A m /\ 0 <= j < get_size A m.

(** ** the periodic wrap *)
Lemma wrap_spec n kl ku i j :
  let k := Z.max kl ku in
  0 <= kl -> 0 <= ku -> 0 < k -> 2 * k < n \/ (2 * k = n /\ kl = k) ->
  n - k <= i < n -> 0 <= j < n - k ->
  let d := wrap_distance n i j in
  ((d <? - kl) || (ku <? d))%bool = negb (cyclic_band n kl ku i j) /\
  (cyclic_band n kl ku i j = true ->
     (0 < d /\ j <= i - (n - k)) \/ (d <= 0 /\ j >= n - k - k /\ i - (n - k) + 1 <= j - (n - k) + k + 1)).
Proof.
  intros k Hkl Hku Hk Hn Hi Hj.
  unfold cyclic_band, wrap_distance.
  assert (E1 : (i - j) mod n = i - j) by (apply Z.mod_small; lia).
  assert (E2 : (j - i) mod n = j - i + n).
  { symmetry; apply Z.mod_unique with (q := -1); lia. }
  rewrite E1, E2.
  pose proof (Z.div_mod n 2 ltac:(lia)). pose proof (Z.mod_pos_bound n 2 ltac:(lia)).
  replace (n / 2 <? j - i) with false by lia.
  destruct (j - i <? - (n / 2)) eqn:E; lia.
Qed.

(** ** totality of get, zero off the stored positions *)
Lemma get_total m : wf m -> forall i j, inr m i j ->
  exists x, get m i j = Ok x /\ (stored (shape_of m) i j = false -> x = zero).
Proof.
  induction m as [n a|n kl ku q|n d l|n k g l l1 l2 q IH d|n kl ku g l q IH d|n top bot g l q IH d];
    unfold inr; simpl get_size; intros W i j [Hi Hj].
  - destruct W as [Hn La].
    destruct (rd_tot a (j * n + i)) as [x E]; [pose proof (flat_bound n n j i Hj Hi); lia|].
    exists x; split; [|simpl; discriminate].
    simpl get. unfold check. replace ((i <? n) && (j <? n))%bool with true by lia. exact E.
  - destruct W as [Hn [Hkl [Hku Lq]]]. simpl. unfold in_band, band_offset, band.
    destruct ((Z.max 0 (j - ku) <=? i) && (i <? Z.min n (j + kl + 1)))%bool eqn:E.
    + destruct (rd_tot q (j * (2 * kl + ku + 1) + kl + ku + i - j)) as [x Ex].
      { pose proof (flat_bound n (2*kl+ku+1) j (kl + ku + i - j) Hj). nia. }
      exists x; split; [exact Ex|]. intros; exfalso; lia.
    + exists zero; split; [reflexivity|auto].
  - destruct W as [Hn [Ld Ll]]. simpl. unfold band.
    destruct (i =? j) eqn:E.
    + destruct (rd_tot d i) as [x Ex]; [lia|]. exists x; split; [exact Ex|lia].
    + destruct (j <? i) eqn:E2.
      * destruct (j + 1 =? i) eqn:E3.
        -- destruct (rd_tot l j) as [x Ex]; [lia|]. exists x; split; [exact Ex|lia].
        -- exists zero; split; auto.
      * destruct (i + 1 =? j) eqn:E3.
        -- destruct (rd_tot l i) as [x Ex]; [lia|]. exists x; split; [exact Ex|lia].
        -- exists zero; split; auto.
  - destruct W as [Hk [Wq [Sq [Lg [-> [-> [Ll Ld]]]]]]].
    simpl get; simpl shape_of; simpl stored. unfold corner_get, check, within.
    replace ((0 <=? i) && (i <? n) && (0 <=? j) && (j <? n))%bool with true by lia. simpl bind.
    destruct ((i <? n - k) && (j <? n - k))%bool eqn:E1.
    { destruct (IH Wq i j) as [x [Ex Zx]]; [unfold inr; lia|].
      exists x; split; [exact Ex|].
      replace ((0 <=? i) && (i <? n - k) && ((0 <=? j) && (j <? n - k)))%bool with true by lia.
      exact Zx. }
    replace ((0 <=? i) && (i <? n - k) && ((0 <=? j) && (j <? n - k)))%bool with false by lia.
    destruct ((n - k <=? i) && (n - k <=? j))%bool eqn:E2.
    { replace ((i - (n - k) <? k) && (j - (n - k) <? k))%bool with true by lia. simpl bind.
      destruct (rd_tot d ((j - (n - k)) * k + (i - (n - k)))) as [x Ex].
      { pose proof (flat_bound k k (j - (n-k)) (i - (n-k))). lia. }
      exists x; split; [exact Ex|discriminate]. }
    destruct (n - k <=? j) eqn:E3.
    { destruct (rd2_tot g k (n - k) (j - (n - k)) i) as [x Ex]; [lia|lia|lia|].
      exists x; split; [exact Ex|discriminate]. }
    destruct (rd2_tot l (n - k) k j (i - (n - k))) as [x Ex]; [lia|lia|lia|].
    exists x; split; [exact Ex|discriminate].
  - destruct W as [Hk [Hkl [Hku [Hn [Wq [Sq [Lg [Ll Ld]]]]]]]].
    simpl get; simpl shape_of; simpl stored. unfold corner_get, check, within.
    set (k := Z.max kl ku) in *.
    replace ((0 <=? i) && (i <? n) && (0 <=? j) && (j <? n))%bool with true by lia. simpl bind.
    destruct ((i <? n - k) && (j <? n - k))%bool eqn:E1.
    { destruct (IH Wq i j) as [x [Ex Zx]]; [unfold inr; lia|].
      exists x; split; [exact Ex|].
      replace ((0 <=? i) && (i <? n - k) && ((0 <=? j) && (j <? n - k)))%bool with true by lia.
      exact Zx. }
    replace ((0 <=? i) && (i <? n - k) && ((0 <=? j) && (j <? n - k)))%bool with false by lia.
    destruct ((n - k <=? i) && (n - k <=? j))%bool eqn:E2.
    { replace ((i - (n - k) <? k) && (j - (n - k) <? k))%bool with true by lia. simpl bind.
      destruct (rd_tot d ((j - (n - k)) * k + (i - (n - k)))) as [x Ex].
      { pose proof (flat_bound k k (j - (n-k)) (i - (n-k))). lia. }
      exists x; split; [exact Ex|].
      replace ((n - k <=? i) && (j <? n - k))%bool with false by lia. discriminate. }
    destruct (n - k <=? j) eqn:E3.
    { destruct (rd2_tot g k (n - k) (j - (n - k)) i) as [x Ex]; [lia|lia|lia|].
      exists x; split; [exact Ex|].
      replace ((n - k <=? i) && (j <? n - k))%bool with false by lia. discriminate. }
    replace ((n - k <=? i) && (j <? n - k))%bool with true by lia.
    destruct (wrap_spec n kl ku i j) as [Hw1 Hw2]; try fold k; try lia.
    rewrite Hw1.
    destruct (cyclic_band n kl ku i j) eqn:Ec; simpl negb; cbv iota.
    2:{ exists zero; split; auto. }
    specialize (Hw2 eq_refl). fold k in Hw2.
    destruct (0 <? wrap_distance n i j) eqn:Ed.
    + destruct (rd2_tot l (k+1) k j (i - (n - k))) as [x Ex]; [lia|lia|lia|].
      exists x; split; [exact Ex|discriminate].
    + destruct (rd2_tot l (k+1) k (j - (n - k) + k + 1) (i - (n - k))) as [x Ex]; [lia|lia|lia|].
      exists x; split; [exact Ex|discriminate].
  - destruct W as [Ht [Hb [Hk [Wq [Sq [Lg [Ll Ld]]]]]]].
    simpl get; simpl shape_of; simpl stored.
    set (k := top + bot) in *. set (nb := n - k) in *. rewrite Sq.
    replace (n - top - bot) with nb by lia.
    assert (Hi' : 0 <= adjust_index n top bot nb i < n /\
                  within nb (i - top) = (adjust_index n top bot nb i <? nb) /\
                  (within nb (i - top) = true -> adjust_index n top bot nb i = i - top)).
    { unfold adjust_index, within. destruct (i <? top) eqn:?; destruct (i <? n - bot) eqn:?; lia. }
    assert (Hj' : 0 <= adjust_index n top bot nb j < n /\
                  within nb (j - top) = (adjust_index n top bot nb j <? nb) /\
                  (within nb (j - top) = true -> adjust_index n top bot nb j = j - top)).
    { unfold adjust_index, within. destruct (j <? top) eqn:?; destruct (j <? n - bot) eqn:?; lia. }
    destruct Hi' as [Hi1 [Hi2 Hi3]], Hj' as [Hj1 [Hj2 Hj3]].
    rewrite Hi2, Hj2 in *.
    set (i' := adjust_index n top bot nb i) in *. set (j' := adjust_index n top bot nb j) in *.
    unfold corner_get, check. fold nb.
    replace ((0 <=? i') && (i' <? n) && (0 <=? j') && (j' <? n))%bool with true by lia. simpl bind.
    destruct ((i' <? nb) && (j' <? nb))%bool eqn:E1.
    { rewrite <- Hi3, <- Hj3 by lia. apply IH; [exact Wq|unfold inr; lia]. }
    destruct ((nb <=? i') && (nb <=? j'))%bool eqn:E2.
    { replace ((i' - nb <? k) && (j' - nb <? k))%bool with true by lia. simpl bind.
      destruct (rd_tot d ((j' - nb) * k + (i' - nb))) as [x Ex].
      { pose proof (flat_bound k k (j' - nb) (i' - nb)). lia. }
      exists x; split; [exact Ex|discriminate]. }
    destruct (nb <=? j') eqn:E3.
    { destruct (rd2_tot g k nb (j' - nb) i') as [x Ex]; [lia|lia|lia|].
      exists x; split; [exact Ex|discriminate]. }
    destruct (rd2_tot l nb k j' (i' - nb)) as [x Ex]; [lia|lia|lia|].
    exists x; split; [exact Ex|discriminate].
Qed.

(** ** one write *)
Definition cst (nb : Z) (stq stl : Z -> Z -> bool) (i j : Z) : bool :=
  if ((i <? nb) && (j <? nb))%bool then stq i j
  else if ((nb <=? i) && (j <? nb))%bool then stl i j else true.
Definition cal (nb : Z) (alq : Z -> Z -> Z -> Z -> bool) (i j i' j' : Z) : bool :=
  if ((i <? nb) && (j <? nb) && (i' <? nb) && (j' <? nb))%bool then alq i j i' j'
  else same_pos i j i' j'.

Lemma same_pos_false i j i' j' : i <> i' \/ j <> j' -> same_pos i j i' j' = false.
Proof. unfold same_pos; lia. Qed.

Lemma corner_step n k g l q d
  (setl : list A -> Z -> Z -> A -> res (list A)) (getl : list A -> Z -> Z -> res A)
  build stq stl alq (Qinv : matrix -> Prop) i j x :
  0 < k <= n -> len g = k * (n - k) -> len d = k * k ->
  0 <= i < n -> 0 <= j < n ->
  (forall i j, 0 <= i < n - k -> 0 <= j < n - k -> stq i j = true \/ tiny x = true ->
     exists q', set q i j x = Ok q' /\ Qinv q' /\
       forall i' j', 0 <= i' < n - k -> 0 <= j' < n - k ->
         get q' i' j' = if (stq i j && alq i j i' j')%bool then Ok x else get q i' j') ->
  (forall i j, n - k <= i < n -> 0 <= j < n - k -> stl i j = true \/ tiny x = true ->
     exists l', setl l i j x = Ok l' /\ len l' = len l /\
       forall i' j', n - k <= i' < n -> 0 <= j' < n - k ->
         getl l' i' j' = if (stl i j && same_pos i j i' j')%bool then Ok x else getl l i' j') ->
  Qinv q ->
  cst (n - k) stq stl i j = true \/ tiny x = true ->
  exists g' l' q' d',
    corner_set A n k g l d q (set q) (setl l) build i j x = Ok (build g' l' q' d') /\
    len g' = len g /\ len l' = len l /\ len d' = len d /\ Qinv q' /\
    forall i' j', 0 <= i' < n -> 0 <= j' < n ->
      corner_get A n k g' d' (get q') (getl l') i' j' =
      if (cst (n - k) stq stl i j && cal (n - k) alq i j i' j')%bool then Ok x
      else corner_get A n k g d (get q) (getl l) i' j'.
Proof.
  intros Hk Lg Ld Hi Hj HQ HL Hq Hst.
  unfold corner_set, check.
  replace ((0 <=? i) && (i <? n) && (0 <=? j) && (j <? n))%bool with true by lia. simpl bind.
  set (nb := n - k) in *. unfold cst in *.
  destruct ((i <? nb) && (j <? nb))%bool eqn:E1.
  { destruct (HQ i j) as [q' [Eq [Iq Gq]]]; [lia|lia|exact Hst|].
    exists g, l, q', d. rewrite Eq; simpl bind. repeat (split; [reflexivity||exact Iq|]).
    intros i' j' Hi' Hj'. unfold corner_get, check. fold nb.
    replace ((0 <=? i') && (i' <? n) && (0 <=? j') && (j' <? n))%bool with true by lia. simpl bind.
    unfold cal.
    destruct ((i' <? nb) && (j' <? nb))%bool eqn:E2.
    - replace ((i <? nb) && (j <? nb) && (i' <? nb) && (j' <? nb))%bool with true by lia.
      apply Gq; lia.
    - replace ((i <? nb) && (j <? nb) && (i' <? nb) && (j' <? nb))%bool with false by lia.
      rewrite same_pos_false by lia. rewrite andb_false_r. reflexivity. }
  destruct ((nb <=? i) && (nb <=? j))%bool eqn:E2.
  { replace ((nb <=? i) && (j <? nb))%bool with false by lia.
    destruct (wr_ok' d ((j - nb) * k + (i - nb)) x) as [d' [Ed [Ldd Gd]]].
    { pose proof (flat_bound k k (j - nb) (i - nb)). lia. }
    exists g, l, q, d'. rewrite Ed; simpl bind. repeat (split; [reflexivity||exact Ldd||exact Hq|]).
    intros i' j' Hi' Hj'. unfold corner_get, check. fold nb.
    replace ((0 <=? i') && (i' <? n) && (0 <=? j') && (j' <? n))%bool with true by lia. simpl bind.
    unfold cal.
    replace ((i <? nb) && (j <? nb) && (i' <? nb) && (j' <? nb))%bool with false by lia.
    simpl andb.
    destruct ((i' <? nb) && (j' <? nb))%bool eqn:E3.
    { rewrite same_pos_false by lia. reflexivity. }
    destruct ((nb <=? i') && (nb <=? j'))%bool eqn:E4.
    - replace ((i' - nb <? k) && (j' - nb <? k))%bool with true by lia. simpl bind.
      rewrite Gd. destruct ((j' - nb) * k + (i' - nb) =? (j - nb) * k + (i - nb)) eqn:Eo.
      + destruct (flat_inj k (j' - nb) (i' - nb) (j - nb) (i - nb)) as [? ?]; [lia|lia|lia|].
        replace (same_pos i j i' j') with true by (unfold same_pos; lia). reflexivity.
      + destruct (same_pos i j i' j') eqn:Es; [|reflexivity].
        unfold same_pos in Es. assert (i = i' /\ j = j') as [-> ->] by lia. lia.
    - rewrite same_pos_false by lia. reflexivity. }
  destruct (nb <=? j) eqn:E3.
  { replace ((nb <=? i) && (j <? nb))%bool with false by lia.
    destruct (wr2_ok g k nb (j - nb) i x) as [g' [Eg [Lgg Gg]]]; [lia|lia|lia|].
    exists g', l, q, d. rewrite Eg; simpl bind. repeat (split; [reflexivity||exact Lgg||exact Hq|]).
    intros i' j' Hi' Hj'. unfold corner_get, check. fold nb.
    replace ((0 <=? i') && (i' <? n) && (0 <=? j') && (j' <? n))%bool with true by lia. simpl bind.
    unfold cal.
    replace ((i <? nb) && (j <? nb) && (i' <? nb) && (j' <? nb))%bool with false by lia.
    simpl andb.
    destruct ((i' <? nb) && (j' <? nb))%bool eqn:E4.
    { rewrite same_pos_false by lia. reflexivity. }
    destruct ((nb <=? i') && (nb <=? j'))%bool eqn:E5.
    { rewrite same_pos_false by lia. reflexivity. }
    destruct (nb <=? j') eqn:E6.
    - rewrite Gg. replace (same_pos (j - nb) i (j' - nb) i') with (same_pos i j i' j')
        by (unfold same_pos; lia). reflexivity.
    - rewrite same_pos_false by lia. reflexivity. }
  replace ((nb <=? i) && (j <? nb))%bool with true in * by lia.
  destruct (HL i j) as [l' [El [Lll Gl]]]; [lia|lia|exact Hst|].
  exists g, l', q, d. rewrite El; simpl bind. repeat (split; [reflexivity||exact Lll||exact Hq|]).
  intros i' j' Hi' Hj'. unfold corner_get, check. fold nb.
  replace ((0 <=? i') && (i' <? n) && (0 <=? j') && (j' <? n))%bool with true by lia. simpl bind.
  unfold cal.
  replace ((i <? nb) && (j <? nb) && (i' <? nb) && (j' <? nb))%bool with false by lia.
  destruct ((i' <? nb) && (j' <? nb))%bool eqn:E4.
  { rewrite same_pos_false by lia. rewrite andb_false_r. reflexivity. }
  destruct ((nb <=? i') && (nb <=? j'))%bool eqn:E5.
  { rewrite same_pos_false by lia. rewrite andb_false_r. reflexivity. }
  destruct (nb <=? j') eqn:E6.
  { rewrite same_pos_false by lia. rewrite andb_false_r. reflexivity. }
  apply Gl; lia.
Qed.

Lemma set_step m : wf m -> forall i j x, inr m i j ->
  stored (shape_of m) i j = true \/ tiny x = true ->
  exists m', set m i j x = Ok m' /\ wf m' /\ shape_of m' = shape_of m /\
    forall i' j', inr m i' j' ->
      get m' i' j' = if (stored (shape_of m) i j && alias (shape_of m) i j i' j')%bool
                     then Ok x else get m i' j'.
Proof.
  induction m as [n a|n kl ku q|n d l|n k g l l1 l2 q IH d|n kl ku g l q IH d|n top bot g l q IH d];
    unfold inr; simpl get_size; intros W i j x [Hi Hj] Hst.
  - destruct W as [Hn La].
    destruct (wr_ok' a (j * n + i) x) as [a' [Ea [Laa Ga]]].
    { pose proof (flat_bound n n j i Hj Hi); lia. }
    simpl set. rewrite Ea; simpl bind. eexists; split; [reflexivity|].
    split; [cbn [wf]; lia|]. split; [reflexivity|].
    intros i' j' [Hi' Hj']. simpl. unfold check.
    replace ((i' <? n) && (j' <? n))%bool with true by lia. simpl bind.
    rewrite Ga. destruct (j' * n + i' =? j * n + i) eqn:E.
    + destruct (flat_inj n j' i' j i) as [? ?]; [lia|lia|lia|].
      replace (same_pos i j i' j') with true by (unfold same_pos; lia). reflexivity.
    + destruct (same_pos i j i' j') eqn:Es; [|reflexivity].
      unfold same_pos in Es. assert (i = i' /\ j = j') as [-> ->] by lia. lia.
  - destruct W as [Hn [Hkl [Hku Lq]]]. simpl stored in *. simpl alias. simpl set.
    destruct (in_band n kl ku i j) eqn:E.
    + assert (Hb : band kl ku i j = true) by (unfold in_band, band in *; lia).
      destruct (wr_ok' q (band_offset kl ku i j) x) as [q' [Eq [Lqq Gq]]].
      { unfold band_offset. unfold band in Hb.
        pose proof (flat_bound n (2*kl+ku+1) j (kl + ku + i - j) Hj). nia. }
      rewrite Eq; simpl bind. eexists; split; [reflexivity|].
      split; [cbn [wf]; lia|]. split; [reflexivity|].
      intros i' j' [Hi' Hj']. simpl. rewrite Hb. simpl andb.
      destruct (in_band n kl ku i' j') eqn:E'.
      * rewrite Gq. unfold band_offset.
        destruct (_ =? _) eqn:Eo.
        -- destruct (flat_inj (2*kl+ku+1) j' (kl + ku + i' - j') j (kl + ku + i - j)) as [? ?];
             [unfold in_band in *; lia|unfold in_band in *; lia|lia|].
           replace (same_pos i j i' j') with true by (unfold same_pos; lia). reflexivity.
        -- destruct (same_pos i j i' j') eqn:Es; [|reflexivity].
           unfold same_pos in Es. assert (i = i' /\ j = j') as [-> ->] by lia. lia.
      * destruct (same_pos i j i' j') eqn:Es; [|reflexivity].
        unfold same_pos in Es. assert (i = i' /\ j = j') as [-> ->] by lia. congruence.
    + assert (Hb : band kl ku i j = false) by (unfold in_band, band in *; lia).
      rewrite Hb in *. destruct Hst as [?|Ht]; [discriminate|].
      unfold check. rewrite Ht. simpl bind.
      eexists; split; [reflexivity|]. split; [cbn [wf]; lia|]. split; [reflexivity|].
      intros; reflexivity.
  - destruct W as [Hn [Ld Ll]]. simpl stored in *. simpl alias. simpl set.
    destruct (i =? j) eqn:E.
    { destruct (wr_ok' d i x) as [d' [Ed [Ldd Gd]]]; [lia|].
      rewrite Ed; simpl bind. eexists; split; [reflexivity|].
      split; [cbn [wf]; lia|]. split; [reflexivity|].
      intros i' j' [Hi' Hj']. simpl.
      replace (band 1 1 i j) with true by (unfold band; lia). simpl andb.
      destruct (i' =? j') eqn:E'.
      - rewrite Gd. unfold same_pos. 
        destruct (i' =? i) eqn:Ei.
        + replace ((i =? i') && (j =? j') || (i =? j') && (j =? i'))%bool with true by lia. reflexivity.
        + replace ((i =? i') && (j =? j') || (i =? j') && (j =? i'))%bool with false by lia. reflexivity.
      - unfold same_pos.
        replace ((i =? i') && (j =? j') || (i =? j') && (j =? i'))%bool with false by lia. reflexivity. }
    set (lo := Z.min i j). set (hi := Z.max i j).
    replace (if j <? i then (j, i) else (i, j)) with (lo, hi)
      by (unfold lo, hi; destruct (j <? i) eqn:?; f_equal; lia).
    destruct (lo + 1 =? hi) eqn:E2; simpl negb; cbv iota.
    + destruct (wr_ok' l lo x) as [l' [El [Lll Gl]]]; [lia|].
      rewrite El; simpl bind. eexists; split; [reflexivity|].
      split; [cbn [wf]; lia|]. split; [reflexivity|].
      intros i' j' [Hi' Hj']. simpl.
      replace (band 1 1 i j) with true by (unfold band; lia). simpl andb.
      destruct (i' =? j') eqn:E'.
      { unfold same_pos.
        replace ((i =? i') && (j =? j') || (i =? j') && (j =? i'))%bool with false by lia. reflexivity. }
      set (lo' := Z.min i' j'). set (hi' := Z.max i' j').
      replace (if j' <? i' then (j', i') else (i', j')) with (lo', hi')
        by (unfold lo', hi'; destruct (j' <? i') eqn:?; f_equal; lia).
      destruct (lo' + 1 =? hi') eqn:E3.
      * rewrite Gl. unfold same_pos. destruct (lo' =? lo) eqn:E4.
        -- replace ((i =? i') && (j =? j') || (i =? j') && (j =? i'))%bool with true by lia. reflexivity.
        -- replace ((i =? i') && (j =? j') || (i =? j') && (j =? i'))%bool with false by lia. reflexivity.
      * unfold same_pos.
        replace ((i =? i') && (j =? j') || (i =? j') && (j =? i'))%bool with false by lia. reflexivity.
    + assert (Hb : band 1 1 i j = false) by (unfold band in *; lia).
      rewrite Hb in *. destruct Hst as [?|Ht]; [discriminate|].
      unfold check. rewrite Ht. simpl bind.
      eexists; split; [reflexivity|]. split; [cbn [wf]; lia|]. split; [reflexivity|].
      intros; reflexivity.
  - destruct W as [Hk [Wq [Sq [Lg [-> [-> [Ll Ld]]]]]]].
    destruct (corner_step n k g l q d
                (fun l i j x => wr2 A l (n - k) k j (i - (n - k)) x)
                (fun l i j => rd2 A l (n - k) k j (i - (n - k)))
                (fun g l q d => Corner A n k g l (n - k) k q d)
                (stored (shape_of q)) (fun _ _ => true) (alias (shape_of q))
                (fun q' => wf q' /\ shape_of q' = shape_of q) i j x)
      as [g' [l' [q' [d' [E [Lg' [Ll' [Ld' [[Wq' Sq'] G]]]]]]]]]; try assumption; auto.
    + intros i0 j0 Hi0 Hj0 Hs. destruct (IH Wq i0 j0 x) as [q' [Eq [Wq' [Sq' Gq]]]];
        [unfold inr; lia|exact Hs|].
      exists q'; split; [exact Eq|split; [auto|]].
      intros; apply Gq; unfold inr; lia.
    + intros i0 j0 Hi0 Hj0 _.
      destruct (wr2_ok l (n - k) k j0 (i0 - (n - k)) x) as [l' [El [Lll Gl]]]; [lia|lia|lia|].
      exists l'; split; [exact El|split; [exact Lll|]].
      intros i' j' _ _. rewrite Gl. simpl andb.
      replace (same_pos j0 (i0 - (n - k)) j' (i' - (n - k))) with (same_pos i0 j0 i' j')
        by (unfold same_pos; lia). reflexivity.
    + destruct Hst as [Hst|Ht]; [left|right; exact Ht].
      simpl stored in Hst. unfold cst, within in *.
      destruct ((i <? n - k) && (j <? n - k))%bool eqn:E1.
      * replace ((0 <=? i) && (i <? n - k) && ((0 <=? j) && (j <? n - k)))%bool with true in Hst by lia.
        exact Hst.
      * destruct ((n - k <=? i) && (j <? n - k))%bool; reflexivity.
    + exists (Corner A n k g' l' (n - k) k q' d'). split; [exact E|].
      split. { cbn [wf]. rewrite <- order_shape, Sq', order_shape. repeat split; try assumption; lia. }
      split; [simpl; rewrite Sq'; reflexivity|].
      intros i' j' [Hi' Hj']. simpl get. rewrite (G i' j' Hi' Hj').
      simpl stored; simpl alias. unfold cst, cal, within.
      replace ((0 <=? i) && (i <? n - k))%bool with (i <? n - k) by lia.
      replace ((0 <=? j) && (j <? n - k))%bool with (j <? n - k) by lia.
      replace ((0 <=? i') && (i' <? n - k))%bool with (i' <? n - k) by lia.
      replace ((0 <=? j') && (j' <? n - k))%bool with (j' <? n - k) by lia.
      destruct ((i <? n - k) && (j <? n - k))%bool; [reflexivity|].
      destruct ((n - k <=? i) && (j <? n - k))%bool; reflexivity.
  - destruct W as [Hk [Hkl [Hku [Hn [Wq [Sq [Lg [Ll Ld]]]]]]]].
    set (k := Z.max kl ku) in *.
    destruct (corner_step n k g l q d
                (fun l i j x =>
                   let d := wrap_distance n i j in
                   if ((d <? - kl) || (ku <? d))%bool then let* _ := check (tiny x) in Ok l
                   else if 0 <? d then wr2 A l (k + 1) k j (i - (n - k)) x
                   else wr2 A l (k + 1) k (j - (n - k) + k + 1) (i - (n - k)) x)
                (fun l i j =>
                   let d := wrap_distance n i j in
                   if ((d <? - kl) || (ku <? d))%bool then Ok zero
                   else if 0 <? d then rd2 A l (k + 1) k j (i - (n - k))
                   else rd2 A l (k + 1) k (j - (n - k) + k + 1) (i - (n - k)))
                (fun g l q d => Periodic A n kl ku g l q d)
                (stored (shape_of q)) (cyclic_band n kl ku) (alias (shape_of q))
                (fun q' => wf q' /\ shape_of q' = shape_of q) i j x)
      as [g' [l' [q' [d' [E [Lg' [Ll' [Ld' [[Wq' Sq'] G]]]]]]]]]; try assumption; auto.
    + intros i0 j0 Hi0 Hj0 Hs. destruct (IH Wq i0 j0 x) as [q' [Eq [Wq' [Sq' Gq]]]];
        [unfold inr; lia|exact Hs|].
      exists q'; split; [exact Eq|split; [auto|]].
      intros; apply Gq; unfold inr; lia.
    + intros i0 j0 Hi0 Hj0 Hs. cbv zeta.
      destruct (wrap_spec n kl ku i0 j0) as [Hw1 Hw2]; try fold k; try lia.
      rewrite Hw1. fold k in Hw2.
      destruct (cyclic_band n kl ku i0 j0) eqn:Ec; simpl negb; cbv iota.
      2:{ destruct Hs as [?|Ht]; [discriminate|]. unfold check; rewrite Ht; simpl bind.
          exists l; split; [reflexivity|split; reflexivity]. }
      specialize (Hw2 eq_refl).
      destruct (0 <? wrap_distance n i0 j0) eqn:Ed.
      * destruct (wr2_ok l (k+1) k j0 (i0 - (n - k)) x) as [l' [El [Lll Gl]]]; [lia|lia|lia|].
        exists l'; split; [exact El|split; [exact Lll|]].
        intros i' j' Hi' Hj'. simpl andb.
        destruct (wrap_spec n kl ku i' j') as [Hv1 Hv2]; try fold k; try lia.
        rewrite Hv1. fold k in Hv2.
        destruct (cyclic_band n kl ku i' j') eqn:Ec'; simpl negb; cbv iota.
        2:{ destruct (same_pos i0 j0 i' j') eqn:Es; [|reflexivity]. unfold same_pos in Es.
            assert (i0 = i' /\ j0 = j') as [-> ->] by lia. congruence. }
        specialize (Hv2 eq_refl).
        destruct (0 <? wrap_distance n i' j') eqn:Ed'.
        -- rewrite Gl. replace (same_pos j0 (i0 - (n - k)) j' (i' - (n - k))) with (same_pos i0 j0 i' j')
             by (unfold same_pos; lia). reflexivity.
        -- rewrite Gl. rewrite same_pos_false by lia.
           destruct (same_pos i0 j0 i' j') eqn:Es; [|reflexivity]. unfold same_pos in Es.
           assert (i0 = i' /\ j0 = j') as [-> ->] by lia. congruence.
      * destruct (wr2_ok l (k+1) k (j0 - (n - k) + k + 1) (i0 - (n - k)) x) as [l' [El [Lll Gl]]]; [lia|lia|lia|].
        exists l'; split; [exact El|split; [exact Lll|]].
        intros i' j' Hi' Hj'. simpl andb.
        destruct (wrap_spec n kl ku i' j') as [Hv1 Hv2]; try fold k; try lia.
        rewrite Hv1. fold k in Hv2.
        destruct (cyclic_band n kl ku i' j') eqn:Ec'; simpl negb; cbv iota.
        2:{ destruct (same_pos i0 j0 i' j') eqn:Es; [|reflexivity]. unfold same_pos in Es.
            assert (i0 = i' /\ j0 = j') as [-> ->] by lia. congruence. }
        specialize (Hv2 eq_refl).
        destruct (0 <? wrap_distance n i' j') eqn:Ed'.
        -- rewrite Gl. rewrite same_pos_false by lia.
           destruct (same_pos i0 j0 i' j') eqn:Es; [|reflexivity]. unfold same_pos in Es.
           assert (i0 = i' /\ j0 = j') as [-> ->] by lia. congruence.
        -- rewrite Gl.
           replace (same_pos (j0 - (n - k) + k + 1) (i0 - (n - k)) (j' - (n - k) + k + 1) (i' - (n - k)))
             with (same_pos i0 j0 i' j') by (unfold same_pos; lia). reflexivity.
    + destruct Hst as [Hst|Ht]; [left|right; exact Ht].
      simpl stored in Hst. fold k in Hst. unfold cst, within in *.
      replace ((0 <=? i) && (i <? n - k) && ((0 <=? j) && (j <? n - k)))%bool
        with ((i <? n - k) && (j <? n - k))%bool in Hst by lia.
      exact Hst.
    + exists (Periodic A n kl ku g' l' q' d'). split; [exact E|].
      split. { cbn [wf]. fold k. rewrite <- order_shape, Sq', order_shape. repeat split; try assumption; lia. }
      split; [simpl; rewrite Sq'; reflexivity|].
      intros i' j' [Hi' Hj']. etransitivity; [exact (G i' j' Hi' Hj')|].
      change (get (Periodic A n kl ku g l q d) i' j') with
        (corner_get A n k g d (get q) (fun i j : Z =>
           let d := wrap_distance n i j in
           if ((d <? - kl) || (ku <? d))%bool then Ok zero
           else if 0 <? d then rd2 A l (k + 1) k j (i - (n - k))
           else rd2 A l (k + 1) k (j - (n - k) + k + 1) (i - (n - k))) i' j').
      cbn [shape_of stored alias]. fold k. unfold cst, cal, within.
      replace ((0 <=? i) && (i <? n - k))%bool with (i <? n - k) by lia.
      replace ((0 <=? j) && (j <? n - k))%bool with (j <? n - k) by lia.
      replace ((0 <=? i') && (i' <? n - k))%bool with (i' <? n - k) by lia.
      replace ((0 <=? j') && (j' <? n - k))%bool with (j' <? n - k) by lia.
      reflexivity.
  - destruct W as [Ht [Hb [Hk [Wq [Sq [Lg [Ll Ld]]]]]]].
    set (k := top + bot) in *.
    assert (Hadj : forall i, 0 <= i < n ->
                  0 <= adjust_index n top bot (n - k) i < n /\
                  within (n - top - bot) (i - top) = (adjust_index n top bot (n - k) i <? n - k) /\
                  (within (n - top - bot) (i - top) = true -> adjust_index n top bot (n - k) i = i - top)).
    { intros i0 Hi0. unfold adjust_index, within, k.
      destruct (i0 <? top) eqn:?; destruct (i0 <? n - bot) eqn:?; lia. }
    assert (Hinj : forall i i', 0 <= i < n -> 0 <= i' < n ->
       (adjust_index n top bot (n - k) i =? adjust_index n top bot (n - k) i') = (i =? i')).
    { intros i0 i0' Hi0 Hi0'. unfold adjust_index, k.
      destruct (i0 <? top) eqn:?; destruct (i0 <? n - bot) eqn:?;
      destruct (i0' <? top) eqn:?; destruct (i0' <? n - bot) eqn:?; lia. }
    destruct (Hadj i Hi) as [Hi1 [Hi2 Hi3]]. destruct (Hadj j Hj) as [Hj1 [Hj2 Hj3]].
    destruct (corner_step n k g l q d
                (fun l i j x => wr2 A l (n - k) k j (i - (n - k)) x)
                (fun l i j => rd2 A l (n - k) k j (i - (n - k)))
                (fun g l q d => Centre A n top bot g l q d)
                (stored (shape_of q)) (fun _ _ => true) (alias (shape_of q))
                (fun q' => wf q' /\ shape_of q' = shape_of q)
                (adjust_index n top bot (n - k) i) (adjust_index n top bot (n - k) j) x)
      as [g' [l' [q' [d' [E [Lg' [Ll' [Ld' [[Wq' Sq'] G]]]]]]]]]; try assumption; auto.
    + intros i0 j0 Hi0 Hj0 Hs. destruct (IH Wq i0 j0 x) as [q' [Eq [Wq' [Sq' Gq]]]];
        [unfold inr; lia|exact Hs|].
      exists q'; split; [exact Eq|split; [auto|]].
      intros; apply Gq; unfold inr; lia.
    + intros i0 j0 Hi0 Hj0 _.
      destruct (wr2_ok l (n - k) k j0 (i0 - (n - k)) x) as [l' [El [Lll Gl]]]; [lia|lia|lia|].
      exists l'; split; [exact El|split; [exact Lll|]].
      intros i' j' _ _. rewrite Gl. simpl andb.
      replace (same_pos j0 (i0 - (n - k)) j' (i' - (n - k))) with (same_pos i0 j0 i' j')
        by (unfold same_pos; lia). reflexivity.
    + destruct Hst as [Hst|Htn]; [left|right; exact Htn].
      simpl stored in Hst. rewrite Hi2, Hj2 in *. unfold cst.
      destruct ((adjust_index n top bot (n - k) i <? n - k) && (adjust_index n top bot (n - k) j <? n - k))%bool eqn:E1.
      * rewrite Hi3, Hj3 by lia. exact Hst.
      * destruct ((n - k <=? adjust_index n top bot (n - k) i) && (adjust_index n top bot (n - k) j <? n - k))%bool; reflexivity.
    + exists (Centre A n top bot g' l' q' d'). split; [simpl set; rewrite Sq; exact E|].
      split. { cbn [wf]. fold k. rewrite <- order_shape, Sq', order_shape. repeat split; try assumption; lia. }
      split; [simpl; rewrite Sq'; reflexivity|].
      intros i' j' [Hi' Hj'].
      destruct (Hadj i' Hi') as [Hi1' [Hi2' Hi3']]. destruct (Hadj j' Hj') as [Hj1' [Hj2' Hj3']].
      simpl get. fold k. rewrite <- (order_shape q'), Sq', order_shape, Sq.
      rewrite (G _ _ Hi1' Hj1').
      simpl stored; simpl alias. rewrite Hi2, Hj2, Hi2', Hj2' in *. unfold cst, cal.
      assert (Esp : same_pos (adjust_index n top bot (n - k) i) (adjust_index n top bot (n - k) j)
                (adjust_index n top bot (n - k) i') (adjust_index n top bot (n - k) j') = same_pos i j i' j').
      { unfold same_pos. rewrite !Hinj by assumption. reflexivity. }
      rewrite Esp.
      destruct ((adjust_index n top bot (n - k) i <? n - k) && (adjust_index n top bot (n - k) j <? n - k))%bool eqn:E1.
      * rewrite Hi3, Hj3 by lia.
        destruct ((true && (adjust_index n top bot (n - k) i' <? n - k)) && (adjust_index n top bot (n - k) j' <? n - k))%bool eqn:E2.
        -- rewrite Hi3', Hj3' by lia. rewrite <- Hi3, <- Hj3 by lia. reflexivity.
        -- reflexivity.
      * simpl andb. destruct ((n - k <=? adjust_index n top bot (n - k) i) && (adjust_index n top bot (n - k) j <? n - k))%bool; reflexivity.
Qed.

(** ** histories *)
Lemma alias_stored m : wf m -> forall i j i' j', inr m i j -> inr m i' j' ->
  alias (shape_of m) i j i' j' = true -> stored (shape_of m) i j = stored (shape_of m) i' j'.
Proof.
  induction m as [n a|n kl ku q|n d l|n k g l l1 l2 q IH d|n kl ku g l q IH d|n top bot g l q IH d];
    unfold inr; cbn [get_size shape_of stored alias]; intros W i j i' j' [Hi Hj] [Hi' Hj'] Ha.
  - reflexivity.
  - unfold same_pos in Ha. assert (i = i' /\ j = j') as [-> ->] by lia. reflexivity.
  - unfold same_pos in Ha. unfold band. lia.
  - cbn [wf] in W. destruct W as [Hk [Wq [Sq _]]]. unfold within in *.
    destruct ((0 <=? i) && (i <? n - k) && ((0 <=? j) && (j <? n - k)) &&
              ((0 <=? i') && (i' <? n - k)) && ((0 <=? j') && (j' <? n - k)))%bool eqn:E.
    + replace ((0 <=? i) && (i <? n - k) && ((0 <=? j) && (j <? n - k)))%bool with true by lia.
      replace ((0 <=? i') && (i' <? n - k) && ((0 <=? j') && (j' <? n - k)))%bool with true by lia.
      apply IH; try assumption; unfold inr; lia.
    + unfold same_pos in Ha. assert (i = i' /\ j = j') as [-> ->] by lia. reflexivity.
  - cbn [wf] in W. set (k := Z.max kl ku) in *.
    destruct W as [Hk [_ [_ [_ [Wq [Sq _]]]]]]. unfold within in *.
    destruct ((0 <=? i) && (i <? n - k) && ((0 <=? j) && (j <? n - k)) &&
              ((0 <=? i') && (i' <? n - k)) && ((0 <=? j') && (j' <? n - k)))%bool eqn:E.
    + replace ((0 <=? i) && (i <? n - k) && ((0 <=? j) && (j <? n - k)))%bool with true by lia.
      replace ((0 <=? i') && (i' <? n - k) && ((0 <=? j') && (j' <? n - k)))%bool with true by lia.
      apply IH; try assumption; unfold inr; lia.
    + unfold same_pos in Ha. assert (i = i' /\ j = j') as [-> ->] by lia. reflexivity.
  - cbn [wf] in W. destruct W as [Ht [Hb [Hk [Wq [Sq _]]]]]. unfold within in *.
    set (nb := n - top - bot) in *.
    destruct ((0 <=? i - top) && (i - top <? nb) && ((0 <=? j - top) && (j - top <? nb)) &&
              ((0 <=? i' - top) && (i' - top <? nb)) && ((0 <=? j' - top) && (j' - top <? nb)))%bool eqn:E.
    + replace ((0 <=? i - top) && (i - top <? nb) && ((0 <=? j - top) && (j - top <? nb)))%bool with true by lia.
      replace ((0 <=? i' - top) && (i' - top <? nb) && ((0 <=? j' - top) && (j' - top <? nb)))%bool with true by lia.
      apply IH; try assumption; unfold inr; lia.
    + unfold same_pos in Ha. assert (i = i' /\ j = j') as [-> ->] by lia. reflexivity.
Qed.

Lemma set_all_spec h : forall m, wf m -> Forall (legal_write tiny (shape_of m)) h ->
  exists m', set_all A tiny m h = Ok m' /\ wf m' /\ shape_of m' = shape_of m /\
    forall i j x, inr m i j -> get m i j = Ok x ->
      get m' i j = Ok (if stored (shape_of m) i j then last_write (shape_of m) h i j x else zero).
Proof.
  induction h as [|[[i0 j0] x0] h IH]; intros m W F.
  - exists m. split; [reflexivity|]. split; [exact W|]. split; [reflexivity|].
    intros i j x Hr Hg. rewrite Hg. destruct (stored (shape_of m) i j) eqn:E; [reflexivity|].
    destruct (get_total m W i j Hr) as [y [Hy Hz]]. rewrite Hg in Hy; injection Hy as ->.
    rewrite (Hz E); reflexivity.
  - inversion F as [|w t Hw Ft]; subst. destruct Hw as [Hi [Hj Hs]].
    rewrite order_shape in Hi, Hj.
    destruct (set_step m W i0 j0 x0) as [m1 [E1 [W1 [S1 G1]]]]; [split; assumption|exact Hs|].
    destruct (IH m1 W1) as [m' [E' [W' [S' G']]]]; [rewrite S1; exact Ft|].
    exists m'. cbn [set_all]. rewrite E1; cbn [bind].
    split; [exact E'|]. split; [exact W'|]. split; [congruence|].
    intros i j x Hr Hg.
    specialize (G1 i j Hr).
    assert (Hr1 : inr m1 i j).
    { unfold inr in *. rewrite <- (order_shape m1), S1, order_shape. exact Hr. }
    unfold last_write. cbn [fold_left].
    destruct (stored (shape_of m) i0 j0) eqn:Es0; cbn [andb] in G1.
    + destruct (alias (shape_of m) i0 j0 i j) eqn:Ea.
      * rewrite (G' i j x0 Hr1 G1), S1. reflexivity.
      * rewrite (G' i j x Hr1) by (rewrite G1; exact Hg). rewrite S1. reflexivity.
    + rewrite (G' i j x Hr1) by (rewrite G1; exact Hg). rewrite S1.
      destruct (alias (shape_of m) i0 j0 i j) eqn:Ea; [|reflexivity].
      rewrite <- (alias_stored m W i0 j0 i j), Es0; try assumption; [reflexivity|].
      split; assumption.
Qed.

(** ** constructors *)
Definition fresh (m : matrix) : Prop := forall i j, inr m i j -> get m i j = Ok zero.

Lemma alloc_ok n : 0 <= n -> alloc A zero n = Ok (zeros A zero n) /\ len (zeros A zero n) = n.
Proof.
  intros H. unfold alloc, zeros, len. replace (n <? 0) with false by lia.
  rewrite repeat_length. split; [reflexivity|lia].
Qed.

Lemma rd_zeros n i : 0 <= i < n -> rd (zeros A zero n) i = Ok zero.
Proof. intros; apply rd_repeat; lia. Qed.

Lemma rd2_zeros e0 e1 a b : 0 <= a < e0 -> 0 <= b < e1 ->
  rd2 A (zeros A zero (e0 * e1)) e0 e1 a b = Ok zero.
Proof.
  intros Ha Hb; unfold rd2.
  replace ((0 <=? a) && (a <? e0) && (0 <=? b) && (b <? e1))%bool with true by lia.
  apply rd_zeros. apply flat_bound; assumption.
Qed.

Lemma new_dense_ok n : 0 < n ->
  exists m, new_dense A zero n = Ok m /\ wf m /\ fresh m /\ shape_of m = SDense n.
Proof.
  intros Hn. unfold new_dense, check. replace (0 <? n) with true by lia. cbn [bind].
  destruct (alloc_ok (n * n)) as [E L]; [nia|]. rewrite E; cbn [bind].
  eexists; split; [reflexivity|]. split; [cbn [wf]; lia|]. split; [|reflexivity].
  intros i j [Hi Hj]. cbn [get_size] in *. cbn [MatrixModel.get]. unfold check.
  replace ((i <? n) && (j <? n))%bool with true by lia. cbn [bind].
  apply rd_zeros, flat_bound; assumption.
Qed.

Lemma new_banded_ok n kl ku : 0 < n -> 0 <= kl <= n -> 0 <= ku <= n ->
  exists m, new_banded A zero n kl ku = Ok m /\ wf m /\ fresh m /\ shape_of m = SBanded n kl ku.
Proof.
  intros Hn Hkl Hku. unfold new_banded, check.
  replace ((0 <? n) && (0 <=? kl) && (0 <=? ku) && (kl <=? n) && (ku <=? n))%bool with true by lia.
  cbn [bind].
  destruct (alloc_ok ((2 * kl + ku + 1) * n)) as [E L]; [nia|]. rewrite E; cbn [bind].
  eexists; split; [reflexivity|]. split; [cbn [wf]; lia|]. split; [|reflexivity].
  intros i j [Hi Hj]. cbn [get_size] in *. cbn [MatrixModel.get].
  destruct (in_band n kl ku i j) eqn:Eb; [|reflexivity].
  apply rd_zeros. unfold in_band, band_offset in *.
  pose proof (flat_bound n (2*kl+ku+1) j (kl + ku + i - j)). nia.
Qed.

Lemma new_pds_ok n : 0 < n ->
  exists m, new_pds A zero n = Ok m /\ wf m /\ fresh m /\ shape_of m = SPds n.
Proof.
  intros Hn. unfold new_pds.
  destruct (alloc_ok n) as [E L]; [lia|]. rewrite E; cbn [bind].
  destruct (alloc_ok (n - 1)) as [E2 L2]; [lia|]. rewrite E2; cbn [bind].
  eexists; split; [reflexivity|]. split; [cbn [wf]; lia|]. split; [|reflexivity].
  intros i j [Hi Hj]. cbn [get_size] in *. cbn [MatrixModel.get].
  destruct (i =? j) eqn:Eb; [apply rd_zeros; lia|].
  destruct (j <? i) eqn:E3.
  - destruct (j + 1 =? i) eqn:E4; [apply rd_zeros; lia|reflexivity].
  - destruct (i + 1 =? j) eqn:E4; [apply rd_zeros; lia|reflexivity].
Qed.

Lemma corner_get_fresh n k getq getl i j :
  0 < k <= n -> 0 <= i < n -> 0 <= j < n ->
  (forall i j, 0 <= i < n - k -> 0 <= j < n - k -> getq i j = Ok zero) ->
  (forall i j, n - k <= i < n -> 0 <= j < n - k -> getl i j = Ok zero) ->
  corner_get A n k (zeros A zero (k * (n - k))) (zeros A zero (k * k)) getq getl i j = Ok zero.
Proof.
  intros Hk Hi Hj Hq Hl. unfold corner_get, check.
  replace ((0 <=? i) && (i <? n) && (0 <=? j) && (j <? n))%bool with true by lia. cbn [bind].
  destruct ((i <? n - k) && (j <? n - k))%bool eqn:E1; [apply Hq; lia|].
  destruct ((n - k <=? i) && (n - k <=? j))%bool eqn:E2.
  { replace ((i - (n - k) <? k) && (j - (n - k) <? k))%bool with true by lia. cbn [bind].
    apply rd_zeros, flat_bound; lia. }
  destruct (n - k <=? j) eqn:E3; [apply rd2_zeros; lia|].
  apply Hl; lia.
Qed.

Lemma new_corner_sized_ok n k q l1 l2 build :
  0 < k <= n -> 0 <= l1 * l2 -> get_size A q = n - k ->
  new_corner_sized A zero n k q l1 l2 build =
    Ok (build (zeros A zero (k * (n - k))) (zeros A zero (l1 * l2)) (zeros A zero (k * k))).
Proof.
  intros Hk Hl Hq. unfold new_corner_sized.
  destruct (alloc_ok (k * (n - k))) as [E1 _]; [nia|].
  destruct (alloc_ok (l1 * l2)) as [E2 _]; [nia|].
  destruct (alloc_ok (k * k)) as [E3 _]; [nia|].
  rewrite E1, E2, E3; unfold check. replace (0 <? k) with true by lia. cbn [bind].
  replace ((0 <? n) && (0 <=? k) && (k <=? n) && (n - k =? get_size A q))%bool with true by lia.
  reflexivity.
Qed.

Lemma new_corner_ok n k q : 0 < k <= n -> wf q -> fresh q -> get_size A q = n - k ->
  exists m, new_corner A zero n k q = Ok m /\ wf m /\ fresh m /\
            shape_of m = SCorner n k (shape_of q).
Proof.
  intros Hk Wq Fq Sq. unfold new_corner.
  rewrite new_corner_sized_ok by (try assumption; nia).
  destruct (alloc_ok (k * (n - k))) as [_ E1]; [nia|].
  destruct (alloc_ok ((n - k) * k)) as [_ E2]; [nia|].
  destruct (alloc_ok (k * k)) as [_ E3]; [nia|].
  eexists; split; [reflexivity|]. split; [cbn [wf]; tauto|]. split; [|reflexivity].
  intros i j [Hi Hj]. cbn [get_size] in *. cbn [MatrixModel.get].
  apply corner_get_fresh; try assumption.
  - intros; apply Fq; unfold inr; lia.
  - intros; apply rd2_zeros; lia.
Qed.

Lemma new_centre_ok n top bot q : 0 <= top -> 0 <= bot -> 0 < top + bot <= n ->
  wf q -> fresh q -> get_size A q = n - (top + bot) ->
  exists m, new_centre A zero n top bot q = Ok m /\ wf m /\ fresh m /\
            shape_of m = SCentre n top bot (shape_of q).
Proof.
  intros Ht Hb Hk Wq Fq Sq. unfold new_centre. set (k := top + bot) in *.
  rewrite new_corner_sized_ok by (try assumption; nia).
  destruct (alloc_ok (k * (n - k))) as [_ E1]; [nia|].
  destruct (alloc_ok ((n - k) * k)) as [_ E2]; [nia|].
  destruct (alloc_ok (k * k)) as [_ E3]; [nia|].
  eexists; split; [reflexivity|]. split; [cbn [wf]; fold k; tauto|]. split; [|reflexivity].
  intros i j [Hi Hj]. cbn [get_size] in *. cbn [MatrixModel.get]. rewrite Sq. fold k.
  apply corner_get_fresh; try assumption.
  - unfold adjust_index, k. destruct (i <? top) eqn:?; destruct (i <? n - bot) eqn:?; lia.
  - unfold adjust_index, k. destruct (j <? top) eqn:?; destruct (j <? n - bot) eqn:?; lia.
  - intros; apply Fq; unfold inr; lia.
  - intros; apply rd2_zeros; lia.
Qed.

Lemma new_periodic_ok n kl ku q : let k := Z.max kl ku in
  0 <= kl -> 0 <= ku -> 0 < k <= n -> 2 * k < n \/ (2 * k = n /\ kl = k) ->
  wf q -> fresh q -> get_size A q = n - k ->
  exists m, new_periodic A zero n kl ku q = Ok m /\ wf m /\ fresh m /\
            shape_of m = SPeriodic n kl ku (shape_of q).
Proof.
  intros k Hkl Hku Hk Hn Wq Fq Sq. unfold new_periodic. fold k.
  rewrite new_corner_sized_ok by (try assumption; nia).
  destruct (alloc_ok (k * (n - k))) as [_ E1]; [nia|].
  destruct (alloc_ok ((k + 1) * k)) as [_ E2]; [nia|].
  destruct (alloc_ok (k * k)) as [_ E3]; [nia|].
  eexists; split; [reflexivity|]. split; [cbn [wf]; fold k; tauto|]. split; [|reflexivity].
  intros i j [Hi Hj]. cbn [get_size] in *. cbn [MatrixModel.get]. fold k.
  apply corner_get_fresh; try assumption.
  - intros; apply Fq; unfold inr; lia.
  - intros i0 j0 Hi0 Hj0. cbv zeta.
    destruct (wrap_spec n kl ku i0 j0) as [Hw1 Hw2]; try fold k; try lia.
    rewrite Hw1. fold k in Hw2.
    destruct (cyclic_band n kl ku i0 j0) eqn:Ec; simpl negb; cbv iota; [|reflexivity].
    specialize (Hw2 eq_refl).
    destruct (0 <? wrap_distance n i0 j0) eqn:Ed; apply rd2_zeros; lia.
Qed.

(** ** factories: every matrix of the advertised structure can be stored *)
Lemma last_write_agree s (h : list (Z * Z * A)) i j (v d : A) :
  (forall i' j' x, In (i', j', x) h -> alias s i' j' i j = true -> x = v) ->
  d = v \/ (exists i' j' x, In (i', j', x) h /\ alias s i' j' i j = true) ->
  last_write s h i j d = v.
Proof.
  unfold last_write. revert d. induction h as [|[[i0 j0] x0] h IH]; intros d Hv Hd.
  - destruct Hd as [Hd|[? [? [? [[] _]]]]]; exact Hd.
  - cbn [fold_left]. apply IH.
    + intros i' j' x Hin Ha. eapply Hv; [right; exact Hin|exact Ha].
    + destruct (alias s i0 j0 i j) eqn:E.
      * left. eapply Hv; [left; reflexivity|exact E].
      * destruct Hd as [Hd|[i' [j' [x [[Heq|Hin] Ha]]]]].
        -- left; exact Hd.
        -- injection Heq as -> -> ->; congruence.
        -- right; exists i', j', x; auto.
Qed.

Lemma alias_refl s i j : alias s i j i j = true.
Proof.
  revert i j; induction s as [n|n kl ku|n|n k q IH|n kl ku q IH|n t b q IH];
    intros i j; cbn [alias]; unfold same_pos; rewrite ?Z.eqb_refl; auto;
    match goal with |- (if ?c then _ else _) = _ => destruct c; auto end.
Qed.

Lemma fill_spec m M h : wf m -> fresh m -> tiny zero = true ->
  lists_elements zero (get_size A m) M h ->
  (forall i j, inr m i j -> stored (shape_of m) i j = false -> M i j = zero) ->
  (forall i j i' j', inr m i j -> inr m i' j' ->
     alias (shape_of m) i j i' j' = true -> M i j = M i' j') ->
  exists m', set_all A tiny m h = Ok m' /\
    forall i j, inr m i j -> get m' i j = Ok (M i j).
Proof.
  intros W F Ht [H1 H2] Hz Ha.
  destruct (set_all_spec h m W) as [m' [E [_ [_ G]]]].
  { apply Forall_forall. intros [[i j] x] Hin. destruct (H1 i j x Hin) as [Hi [Hj ->]].
    unfold legal_write. rewrite order_shape. split; [exact Hi|split; [exact Hj|]].
    destruct (stored (shape_of m) i j) eqn:Es; [left; reflexivity|right].
    rewrite Hz; [exact Ht|split; assumption|exact Es]. }
  exists m'; split; [exact E|]. intros i j Hr.
  rewrite (G i j zero Hr (F i j Hr)).
  destruct (stored (shape_of m) i j) eqn:Es.
  - f_equal. apply last_write_agree.
    + intros i' j' x Hin Hal. destruct (H1 _ _ _ Hin) as [Hi' [Hj' ->]].
      apply Ha; [split; assumption|exact Hr|exact Hal].
    + destruct Hr as [Hi Hj]. destruct (H2 i j Hi Hj) as [Hz0|Hin]; [left; congruence|].
      right. exists i, j, (M i j). split; [exact Hin|apply alias_refl].
  - rewrite Hz by assumption. reflexivity.
Qed.

Lemma make_new_banded_ok n kl ku pds : 0 < n -> 0 <= kl -> 0 <= ku ->
  exists m, make_new_banded A zero n kl ku pds = Ok m /\ wf m /\ fresh m /\
    get_size A m = n /\
    (forall i j, inr m i j -> band kl ku i j = true -> stored (shape_of m) i j = true) /\
    (forall i j i' j', alias (shape_of m) i j i' j' = true ->
        same_pos i j i' j' = true \/ (pds = true /\ same_pos i j j' i' = true)).
Proof.
  intros Hn Hkl Hku. unfold make_new_banded.
  destruct ((kl =? ku) && (kl =? 1) && pds)%bool eqn:E1.
  { destruct (new_pds_ok n) as [m [E [W [F S]]]]; [lia|].
    exists m. rewrite <- order_shape, S. repeat split; auto; cbn [stored alias order].
    - assert (kl = 1 /\ ku = 1) as [-> ->] by lia. auto.
    - intros i j i' j' Ha. apply orb_true_iff in Ha. destruct Ha; [left; assumption|right].
      split; [lia|assumption]. }
  destruct (n <=? 2 * kl + 1 + ku) eqn:E2.
  { destruct (new_dense_ok n) as [m [E [W [F S]]]]; [lia|].
    exists m. rewrite <- order_shape, S. repeat split; auto. }
  destruct (new_banded_ok n kl ku) as [m [E [W [F S]]]]; [lia|lia|lia|].
  exists m. rewrite <- order_shape, S. repeat split; auto.
Qed.

Lemma make_new_periodic_banded_ok n kl ku pds :
  0 < n -> 0 <= kl <= n -> 0 <= ku <= n -> 0 < Z.max kl ku -> (pds = true -> 1 < n) ->
  exists m, make_new_periodic_banded A zero n kl ku pds = Ok m /\ wf m /\ fresh m /\
    get_size A m = n /\
    (forall i j, inr m i j -> cyclic_band n kl ku i j = true -> stored (shape_of m) i j = true) /\
    (forall i j i' j', alias (shape_of m) i j i' j' = true ->
        same_pos i j i' j' = true \/ (pds = true /\ same_pos i j j' i' = true)).
Proof.
  intros Hn Hkl Hku Hk Hp. unfold make_new_periodic_banded. set (k := Z.max kl ku) in *.
  assert (Hcyc : forall i j, 2 * k <= n -> 0 <= i < n - k -> 0 <= j < n - k ->
             cyclic_band n kl ku i j = true -> band kl ku i j = true).
  { intros i j Hkn Hi Hj. unfold cyclic_band, band.
    destruct (Z_le_gt_dec j i).
    - rewrite (Z.mod_small (i - j)) by lia.
      destruct (Z.eq_dec i j) as [->|]; [lia|].
      replace ((j - i) mod n) with (j - i + n); [lia|].
      apply Z.mod_unique with (q := -1); lia.
    - rewrite (Z.mod_small (j - i)) by lia.
      replace ((i - j) mod n) with (i - j + n); [lia|].
      apply Z.mod_unique with (q := -1); lia. }
  destruct (pds && (kl =? ku) && (kl =? 1))%bool eqn:E1.
  { assert (k = 1) by lia.
    destruct (new_pds_ok (n - k)) as [q [E [W [F S]]]]; [lia|].
    rewrite E; cbn [bind].
    destruct (new_periodic_ok n kl ku q) as [m [Em [Wm [Fm Sm]]]]; fold k; try assumption; try lia.
    { rewrite <- order_shape, S; reflexivity. }
    exists m. rewrite <- order_shape, Sm, S. repeat split; auto.
    - intros i j [Hi Hj] Hc. rewrite <- order_shape, Sm in Hi, Hj. cbn [stored order] in *. fold k.
      destruct (within (n - k) i && within (n - k) j)%bool eqn:Ew.
      + unfold within in Ew. apply Hcyc in Hc; try lia.
        assert (kl = 1 /\ ku = 1) as [Ekl Eku] by lia. rewrite Ekl, Eku in Hc. exact Hc.
      + destruct ((n - k <=? i) && (j <? n - k))%bool; auto.
    - intros i j i' j' Ha. cbn [alias] in Ha. fold k in Ha.
    destruct (within (n - k) i && within (n - k) j && within (n - k) i' && within (n - k) j')%bool; [|left; exact Ha].
      apply orb_true_iff in Ha. destruct Ha; [left; assumption|right].
      split; [lia|assumption]. }
  destruct (n * n <=? k * n + k * (k + 1) + (2 * kl + 1 + ku) * (n - k)) eqn:E2.
  { destruct (new_dense_ok n) as [m [E [W [F S]]]]; [lia|].
    exists m. rewrite <- order_shape, S. repeat split; auto. }
  assert (Hkn : 2 * k + 1 < n).
  { assert (Hge : 2 * kl + 1 + ku >= k + 1) by lia.
    destruct (Z_lt_ge_dec k n) as [Hlt|Hge2]; [|exfalso; nia].
    assert ((k + 1) * (n - k) <= (2 * kl + 1 + ku) * (n - k)) by nia. nia. }
  destruct (new_banded_ok (n - k) kl ku) as [q [E [W [F S]]]]; [lia|lia|lia|].
  rewrite E; cbn [bind].
  destruct (new_periodic_ok n kl ku q) as [m [Em [Wm [Fm Sm]]]]; fold k; try assumption; try lia.
  { rewrite <- order_shape, S; reflexivity. }
  exists m. rewrite <- order_shape, Sm, S. repeat split; auto.
  - intros i j [Hi Hj] Hc. rewrite <- order_shape, Sm in Hi, Hj. cbn [stored order] in *. fold k.
    destruct (within (n - k) i && within (n - k) j)%bool eqn:Ew.
    + unfold within in Ew. apply Hcyc in Hc; try lia.
    + destruct ((n - k <=? i) && (j <? n - k))%bool; auto.
  - intros i j i' j' Ha. cbn [alias] in Ha. fold k in Ha.
    destruct (within (n - k) i && within (n - k) j && within (n - k) i' && within (n - k) j')%bool; left; exact Ha.
Qed.

Lemma make_new_block_ok n kl ku pds b1 b2 :
  0 <= kl -> 0 <= ku -> 0 <= b1 -> 0 <= b2 -> 0 < b1 + b2 < n ->
  exists m, make_new_block_with_banded_region A zero n kl ku pds b1 b2 = Ok m /\ wf m /\ fresh m /\
    get_size A m = n /\
    (let off := if b2 =? 0 then 0 else b1 in
     forall i j, inr m i j ->
      (off <= i < off + (n - b1 - b2) -> off <= j < off + (n - b1 - b2) -> band kl ku i j = true) ->
       stored (shape_of m) i j = true) /\
    (forall i j i' j', alias (shape_of m) i j i' j' = true ->
        same_pos i j i' j' = true \/ (pds = true /\ same_pos i j j' i' = true)).
Proof.
  intros Hkl Hku Hb1 Hb2 Hb. unfold make_new_block_with_banded_region.
  assert (Hfin : forall q, wf q -> fresh q -> get_size A q = n - b1 - b2 ->
     (forall i j, inr q i j -> band kl ku i j = true -> stored (shape_of q) i j = true) ->
     (forall i j i' j', alias (shape_of q) i j i' j' = true ->
        same_pos i j i' j' = true \/ (pds = true /\ same_pos i j j' i' = true)) ->
     exists m, (if b2 =? 0 then new_corner A zero n b1 q else new_centre A zero n b1 b2 q) = Ok m /\
       wf m /\ fresh m /\ get_size A m = n /\
    (let off := if b2 =? 0 then 0 else b1 in
     forall i j, inr m i j ->
      (off <= i < off + (n - b1 - b2) -> off <= j < off + (n - b1 - b2) -> band kl ku i j = true) ->
       stored (shape_of m) i j = true) /\
    (forall i j i' j', alias (shape_of m) i j i' j' = true ->
        same_pos i j i' j' = true \/ (pds = true /\ same_pos i j j' i' = true))).
  { intros q Wq Fq Sq Stq Alq. destruct (b2 =? 0) eqn:E0.
    - destruct (new_corner_ok n b1 q) as [m [Em [Wm [Fm Sm]]]]; try assumption; try lia.
      exists m. rewrite <- order_shape, Sm. cbv zeta. repeat split; auto.
      + intros i j [Hi Hj] Hc. rewrite <- order_shape, Sm in Hi, Hj. cbn [stored order] in *.
        destruct (within (n - b1) i && within (n - b1) j)%bool eqn:Ew; [|reflexivity].
        unfold within in Ew. apply Stq; [unfold inr; lia|]. apply Hc; lia.
      + intros i j i' j' Ha. cbn [alias] in Ha.
        destruct (within (n - b1) i && within (n - b1) j && within (n - b1) i' && within (n - b1) j')%bool;
          auto.
    - destruct (new_centre_ok n b1 b2 q) as [m [Em [Wm [Fm Sm]]]]; try assumption; try lia.
      exists m. rewrite <- order_shape, Sm. cbv zeta. repeat split; auto.
      + intros i j [Hi Hj] Hc. rewrite <- order_shape, Sm in Hi, Hj. cbn [stored order] in *.
        destruct (within (n - b1 - b2) (i - b1) && within (n - b1 - b2) (j - b1))%bool eqn:Ew; [|reflexivity].
        unfold within in Ew. apply Stq; [unfold inr; lia|].
        assert (Hbd : band kl ku i j = true) by (apply Hc; lia).
        unfold band in *. lia.
      + intros i j i' j' Ha. cbn [alias] in Ha.
        destruct (within (n - b1 - b2) (i - b1) && within (n - b1 - b2) (j - b1) &&
                  within (n - b1 - b2) (i' - b1) && within (n - b1 - b2) (j' - b1))%bool; auto.
        apply Alq in Ha. unfold same_pos in *.
        destruct Ha as [Ha|[Hp Ha]]; [left; lia|right; split; [exact Hp|lia]]. }
  destruct (pds && (kl =? ku) && (kl =? 1))%bool eqn:E1.
  { destruct (new_pds_ok (n - b1 - b2)) as [q [E [W [F S]]]]; [lia|].
    rewrite E; cbn [bind]. apply Hfin; try assumption.
    - rewrite <- order_shape, S; reflexivity.
    - rewrite S; cbn [stored]. assert (kl = 1 /\ ku = 1) as [-> ->] by lia. auto.
    - rewrite S; cbn [alias]. intros i j i' j' Ha. apply orb_true_iff in Ha.
      destruct Ha; [left; assumption|right]. split; [lia|assumption]. }
  destruct (n - b1 - b2 <=? 2 * kl + 1 + ku) eqn:E2.
  { destruct (new_dense_ok n) as [m [E [W [F S]]]]; [lia|].
    exists m. rewrite <- order_shape, S. repeat split; auto. }
  destruct (new_banded_ok (n - b1 - b2) kl ku) as [q [E [W [F S]]]]; [lia|lia|lia|].
  rewrite E; cbn [bind]. apply Hfin; try assumption.
  - rewrite <- order_shape, S; reflexivity.
  - rewrite S; cbn [stored]; auto.
  - rewrite S; cbn [alias]; auto.
Qed.

Lemma sym_alias (M : Z -> Z -> A) pds i j i' j' :
  (pds = true -> forall i j, M i j = M j i) ->
  same_pos i j i' j' = true \/ (pds = true /\ same_pos i j j' i' = true) -> M i j = M i' j'.
Proof.
  unfold same_pos. intros Hs [Ha|[Hp Ha]].
  - assert (i = i' /\ j = j') as [-> ->] by lia; reflexivity.
  - assert (i = j' /\ j = i') as [-> ->] by lia. apply Hs; exact Hp.
Qed.

(** the three factories store every matrix of the advertised structure *)
Lemma factory_banded n kl ku pds M h :
  tiny zero = true -> 0 < n -> 0 <= kl -> 0 <= ku ->
  (forall i j, band kl ku i j = false -> M i j = zero) ->
  (pds = true -> forall i j, M i j = M j i) ->
  lists_elements zero n M h ->
  exists m m', make_new_banded A zero n kl ku pds = Ok m /\ set_all A tiny m h = Ok m' /\
    forall i j, 0 <= i < n -> 0 <= j < n -> get m' i j = Ok (M i j).
Proof.
  intros Ht Hn Hkl Hku Hb Hs Hl.
  destruct (make_new_banded_ok n kl ku pds) as [m [E [W [F [S [St Al]]]]]]; try assumption.
  destruct (fill_spec m M h W F Ht) as [m' [E' G]].
  - rewrite S; exact Hl.
  - intros i j Hr Hst. apply Hb. destruct (band kl ku i j) eqn:Eb; [|reflexivity].
    rewrite (St i j Hr Eb) in Hst; discriminate.
  - intros i j i' j' _ _ Ha. eapply sym_alias; [exact Hs|]. apply Al; exact Ha.
  - exists m, m'. split; [exact E|split; [exact E'|]]. intros; apply G; unfold inr; rewrite S; auto.
Qed.

Lemma factory_periodic n kl ku pds M h :
  tiny zero = true -> 0 < n -> 0 <= kl <= n -> 0 <= ku <= n -> 0 < Z.max kl ku ->
  (pds = true -> 1 < n) ->
  (forall i j, cyclic_band n kl ku i j = false -> M i j = zero) ->
  (pds = true -> forall i j, M i j = M j i) ->
  lists_elements zero n M h ->
  exists m m', make_new_periodic_banded A zero n kl ku pds = Ok m /\ set_all A tiny m h = Ok m' /\
    forall i j, 0 <= i < n -> 0 <= j < n -> get m' i j = Ok (M i j).
Proof.
  intros Ht Hn Hkl Hku Hk Hp Hb Hs Hl.
  destruct (make_new_periodic_banded_ok n kl ku pds) as [m [E [W [F [S [St Al]]]]]]; try assumption.
  destruct (fill_spec m M h W F Ht) as [m' [E' G]].
  - rewrite S; exact Hl.
  - intros i j Hr Hst. apply Hb. destruct (cyclic_band n kl ku i j) eqn:Eb; [|reflexivity].
    rewrite (St i j Hr Eb) in Hst; discriminate.
  - intros i j i' j' _ _ Ha. eapply sym_alias; [exact Hs|]. apply Al; exact Ha.
  - exists m, m'. split; [exact E|split; [exact E'|]]. intros; apply G; unfold inr; rewrite S; auto.
Qed.

Lemma factory_block n kl ku pds b1 b2 M h :
  tiny zero = true -> 0 <= kl -> 0 <= ku -> 0 <= b1 -> 0 <= b2 -> 0 < b1 + b2 < n ->
  (let off := if b2 =? 0 then 0 else b1 in
   forall i j, off <= i < off + (n - b1 - b2) -> off <= j < off + (n - b1 - b2) ->
               band kl ku i j = false -> M i j = zero) ->
  (pds = true -> forall i j, M i j = M j i) ->
  lists_elements zero n M h ->
  exists m m', make_new_block_with_banded_region A zero n kl ku pds b1 b2 = Ok m /\
    set_all A tiny m h = Ok m' /\
    forall i j, 0 <= i < n -> 0 <= j < n -> get m' i j = Ok (M i j).
Proof.
  intros Ht Hkl Hku Hb1 Hb2 Hbn Hb Hs Hl.
  destruct (make_new_block_ok n kl ku pds b1 b2) as [m [E [W [F [S [St Al]]]]]]; try assumption.
  cbv zeta in *.
  destruct (fill_spec m M h W F Ht) as [m' [E' G]].
  - rewrite S; exact Hl.
  - intros i j Hr Hst. 
    set (off := if b2 =? 0 then 0 else b1) in *.
    destruct (band kl ku i j) eqn:Eb.
    + rewrite (St i j Hr) in Hst by auto. discriminate.
    + destruct ((off <=? i) && (i <? off + (n - b1 - b2)) && (off <=? j) && (j <? off + (n - b1 - b2)))%bool eqn:Eo.
      * apply Hb; try lia; exact Eb.
      * rewrite (St i j Hr) in Hst by lia. discriminate.
  - intros i j i' j' _ _ Ha. eapply sym_alias; [exact Hs|]. apply Al; exact Ha.
  - exists m, m'. split; [exact E|split; [exact E'|]]. intros; apply G; unfold inr; rewrite S; auto.
Qed.

(** ** every constructed matrix is well formed and zero *)
Lemma new_corner_sized_inv n k q l1 l2 build m :
  new_corner_sized A zero n k q l1 l2 build = Ok m ->
  0 < k <= n /\ get_size A q = n - k.
Proof.
  unfold new_corner_sized, check. intros H.
  destruct (alloc A zero (k * (n - k))) eqn:E1; cbn [bind] in H; try discriminate.
  destruct (alloc A zero (l1 * l2)) eqn:E2; cbn [bind] in H; try discriminate.
  destruct (0 <? k) eqn:E3; cbn [bind] in H; try discriminate.
  destruct (alloc A zero (k * k)) eqn:E4; cbn [bind] in H; try discriminate.
  destruct (_ && _)%bool eqn:E5 in H; cbn [bind] in H; try discriminate. lia.
Qed.

Lemma constructed_ok m : constructed A zero m -> wf m /\ fresh m.
Proof.
  induction 1 as [n m H|n kl ku m H|n m H Hn|n k q m Hq [Wq Fq] H|n kl ku q m Hq [Wq Fq] Hkl Hku Hn H|n t b q m Hq [Wq Fq] Ht Hb H].
  - destruct (0 <? n) eqn:E.
    + destruct (new_dense_ok n) as [m' [E' [W [F _]]]]; [lia|]. rewrite H in E'; injection E' as <-; auto.
    + unfold new_dense, check in H. rewrite E in H; discriminate.
  - destruct ((0 <? n) && (0 <=? kl) && (0 <=? ku) && (kl <=? n) && (ku <=? n))%bool eqn:E.
    + destruct (new_banded_ok n kl ku) as [m' [E' [W [F _]]]]; [lia|lia|lia|].
      rewrite H in E'; injection E' as <-; auto.
    + unfold new_banded, check in H. rewrite E in H; discriminate.
  - destruct (new_pds_ok n) as [m' [E' [W [F _]]]]; [lia|]. rewrite H in E'; injection E' as <-; auto.
  - pose proof (new_corner_sized_inv _ _ _ _ _ _ _ H) as [H1 H2].
    destruct (new_corner_ok n k q) as [m' [E' [W [F _]]]]; try assumption.
    rewrite H in E'; injection E' as <-; auto.
  - pose proof (new_corner_sized_inv _ _ _ _ _ _ _ H) as [H1 H2].
    destruct (new_periodic_ok n kl ku q) as [m' [E' [W [F _]]]]; try assumption.
    rewrite H in E'; injection E' as <-; auto.
  - pose proof (new_corner_sized_inv _ _ _ _ _ _ _ H) as [H1 H2].
    destruct (new_centre_ok n t b q) as [m' [E' [W [F _]]]]; try assumption.
    rewrite H in E'; injection E' as <-; auto.
Qed.

Lemma storage_faithful m h : constructed A zero m ->
  Forall (legal_write tiny (shape_of m)) h ->
  exists m', set_all A tiny m h = Ok m' /\
    forall i j, 0 <= i < order (shape_of m) -> 0 <= j < order (shape_of m) ->
      get m' i j = Ok (if stored (shape_of m) i j then last_write (shape_of m) h i j zero else zero).
Proof.
  intros Hc Hl. destruct (constructed_ok m Hc) as [W F].
  destruct (set_all_spec h m W Hl) as [m' [E [_ [_ G]]]].
  exists m'; split; [exact E|]. rewrite order_shape. intros i j Hi Hj.
  apply G; [split; assumption|]. apply F; split; assumption.
Qed.

(** an illegal write is reported by an assertion *)
Lemma set_illegal m : wf m -> forall i j x, inr m i j ->
  stored (shape_of m) i j = false -> tiny x = false -> set m i j x = AssertFail.
Proof.
  induction m as [n a|n kl ku q|n d l|n k g l l1 l2 q IH d|n kl ku g l q IH d|n top bot g l q IH d];
    unfold inr; cbn [get_size shape_of stored]; intros W i j x [Hi Hj] Hst Ht.
  - discriminate.
  - cbn [MatrixModel.set]. replace (in_band n kl ku i j) with false.
    + unfold check; rewrite Ht; reflexivity.
    + destruct W as [_ [? [? _]]]. unfold band, in_band in *. lia.
  - cbn [MatrixModel.set]. unfold band in Hst. replace (i =? j) with false by lia.
    destruct (j <? i) eqn:E.
    + replace (j + 1 =? i) with false by lia. simpl negb; cbv iota. unfold check; rewrite Ht; reflexivity.
    + replace (i + 1 =? j) with false by lia. simpl negb; cbv iota. unfold check; rewrite Ht; reflexivity.
  - cbn [wf] in W. destruct W as [Hk [Wq [Sq _]]].
    unfold within in Hst.
    destruct ((0 <=? i) && (i <? n - k) && ((0 <=? j) && (j <? n - k)))%bool eqn:E; [|discriminate].
    cbn [MatrixModel.set]. unfold corner_set, check.
    replace ((0 <=? i) && (i <? n) && (0 <=? j) && (j <? n))%bool with true by lia. cbn [bind].
    replace ((i <? n - k) && (j <? n - k))%bool with true by lia.
    rewrite IH; [reflexivity|exact Wq|unfold inr; lia|exact Hst|exact Ht].
  - cbn [wf] in W. set (k := Z.max kl ku) in *.
    destruct W as [Hk [Hkl [Hku [Hn [Wq [Sq _]]]]]].
    unfold within in Hst.
    cbn [MatrixModel.set]. fold k. unfold corner_set, check.
    replace ((0 <=? i) && (i <? n) && (0 <=? j) && (j <? n))%bool with true by lia. cbn [bind].
    destruct ((0 <=? i) && (i <? n - k) && ((0 <=? j) && (j <? n - k)))%bool eqn:E.
    + replace ((i <? n - k) && (j <? n - k))%bool with true by lia.
      rewrite IH; [reflexivity|exact Wq|unfold inr; lia|exact Hst|exact Ht].
    + replace ((i <? n - k) && (j <? n - k))%bool with false by lia.
      destruct ((n - k <=? i) && (j <? n - k))%bool eqn:E2; [|discriminate].
      replace ((n - k <=? i) && (n - k <=? j))%bool with false by lia.
      replace (n - k <=? j) with false by lia.
      destruct (wrap_spec n kl ku i j) as [Hw1 _]; try fold k; try lia.
      cbv zeta. rewrite Hw1, Hst. simpl negb; cbv iota. rewrite Ht. reflexivity.
  - cbn [wf] in W. set (k := top + bot) in *.
    destruct W as [Htp [Hb [Hk [Wq [Sq _]]]]].
    unfold within in Hst.
    destruct ((0 <=? i - top) && (i - top <? n - top - bot) && ((0 <=? j - top) && (j - top <? n - top - bot)))%bool eqn:E; [|discriminate].
    cbn [MatrixModel.set]. fold k. unfold corner_set, check. rewrite Sq.
    replace (adjust_index n top bot (n - k) i) with (i - top).
    2:{ unfold adjust_index. replace (i <? top) with false by lia. replace (i <? n - bot) with true by lia. reflexivity. }
    replace (adjust_index n top bot (n - k) j) with (j - top).
    2:{ unfold adjust_index. replace (j <? top) with false by lia. replace (j <? n - bot) with true by lia. reflexivity. }
    replace ((0 <=? i - top) && (i - top <? n) && (0 <=? j - top) && (j - top <? n))%bool with true by lia. cbn [bind].
    replace ((i - top <? n - k) && (j - top <? n - k))%bool with true by lia.
    rewrite IH; [reflexivity|exact Wq|unfold inr; lia|exact Hst|exact Ht].
Qed.

Lemma illegal_write_asserts m h m' i j x : constructed A zero m ->
  Forall (legal_write tiny (shape_of m)) h -> set_all A tiny m h = Ok m' ->
  0 <= i < order (shape_of m) -> 0 <= j < order (shape_of m) ->
  stored (shape_of m) i j = false -> tiny x = false ->
  set m' i j x = AssertFail.
Proof.
  intros Hc Hl E Hi Hj Hs Ht. destruct (constructed_ok m Hc) as [W F].
  destruct (set_all_spec h m W Hl) as [m2 [E2 [W2 [S2 _]]]].
  rewrite E in E2; injection E2 as <-.
  apply set_illegal; [exact W2| |rewrite S2; exact Hs|exact Ht].
  rewrite order_shape in Hi, Hj. unfold inr. rewrite <- (order_shape m'), S2, order_shape. auto.
Qed.

End Storage.
