(** Proofs about printing. *)
From Coq Require Import String Ascii.
From Verif Require Export UtlSpec.
Open Scope Z_scope.

Section P.
  Context {T : Type} (show : T -> text) (data : list T).

  Lemma elements_ok base e st a : forall n i0 os,
    (forall j, (i0 <= j < i0 + n)%nat -> md_at data base e st (Z.of_nat j) = Ok (a j)) ->
    stream_elements show data n (Z.of_nat i0) base e st os =
    Ok (os ++ flat_map (fun j => show (a j) ++ [","%char]) (seq i0 n))%list.
  Proof.
    induction n as [|n IH]; intros i0 os H; simpl.
    - now rewrite app_nil_r.
    - rewrite (H i0) by lia. simpl. replace (Z.of_nat i0 + 1) with (Z.of_nat (Datatypes.S i0)) by lia.
      rewrite IH by (intros; apply H; lia). f_equal. now rewrite <- !app_assoc.
  Qed.
  Lemma join_seq f : forall n i0, join (map f (seq i0 (Datatypes.S n))) =
    (flat_map (fun j => f j ++ [","%char]) (seq i0 n) ++ f (i0 + n)%nat)%list.
  Proof.
    induction n as [|n IH]; intros i0.
    - simpl. now replace (i0 + 0)%nat with i0 by lia.
    - change (seq i0 (Datatypes.S (Datatypes.S n))) with (i0 :: seq (Datatypes.S i0) (Datatypes.S n)).
      rewrite map_cons. cbn [join]. 
      destruct (map f (seq (Datatypes.S i0) (Datatypes.S n))) eqn:E; [discriminate|]. rewrite <- E, IH.
      cbn [seq flat_map]. rewrite <- !app_assoc. simpl. do 4 f_equal. lia.
  Qed.
  Lemma address_nil l : address l [] = 0.
  Proof. destruct l; reflexivity. Qed.

  Lemma one_dim base e st os a : e <> 0%nat -> (Z.of_nat e < 18446744073709551616) ->
    (forall i, (i < e)%nat -> rd data (base + Z.of_nat i * st) = Ok (a i)) ->
    stream_impl show data [e] [st] base os = Ok (os ++ rendering [e] (fun idx => show (a (hd 0%nat idx))))%list.
  Proof.
    intros He Hb H. cbn [stream_impl].
    assert (E : size_t (Z.of_nat e - 1) = Z.of_nat (e - 1)) by (unfold size_t; rewrite Z.mod_small; lia).
    rewrite E, Nat2Z.id.
    assert (A : forall j, (j < e)%nat -> md_at data base e st (Z.of_nat j) = Ok (a j)).
    { intros j Hj. unfold md_at. replace ((0 <=? Z.of_nat j) && (Z.of_nat j <? Z.of_nat e)) with true by lia. auto. }
    change 0 with (Z.of_nat 0). rewrite (elements_ok base e st a) by (intros; apply A; lia).
    simpl bind. rewrite A by lia. simpl. f_equal.
    destruct e as [|e]; [lia|]. rewrite (join_seq (fun i => show (a (hd 0%nat [i])))). simpl.
    replace (e - 0)%nat with e by lia. rewrite <- !app_assoc. reflexivity.
  Qed.

  Lemma rows_ok extents strides base st (f : nat -> text) : forall n i0 os,
    (forall j os, (i0 <= j < i0 + n)%nat ->
       stream_impl show data extents strides (base + Z.of_nat j * st) os = Ok (os ++ f j)%list) ->
    (fix rows (n : nat) (i0 : Z) (os : text) : res text :=
       match n with
       | O => Ok os
       | Datatypes.S n' => let* os' := stream_impl show data extents strides (base + i0 * st) os in rows n' (i0 + 1) os'
       end) n (Z.of_nat i0) os = Ok (os ++ flat_map f (seq i0 n))%list.
  Proof.
    induction n as [|n IH]; intros i0 os H; simpl.
    - now rewrite app_nil_r.
    - rewrite (H i0) by lia. simpl. replace (Z.of_nat i0 + 1) with (Z.of_nat (Datatypes.S i0)) by lia.
      rewrite IH by (intros; apply H; lia). f_equal. now rewrite <- !app_assoc.
  Qed.
  Lemma rendering_ext extents : forall a b, (forall idx, is_index extents idx -> a idx = b idx) ->
    rendering extents a = rendering extents b.
  Proof.
    induction extents as [|e rest IH]; intros a b H.
    - simpl. apply H. constructor.
    - destruct rest as [|e' rest].
      + simpl. do 3 f_equal. apply map_ext_in. intros i Hi. apply in_seq in Hi. apply H. repeat constructor. lia.
      + cbn [rendering]. f_equal. f_equal. 
        assert (G : forall l, (forall i, In i l -> (i < e)%nat) ->
          flat_map (fun i => rendering (e' :: rest) (fun idx => a (i :: idx))) l =
          flat_map (fun i => rendering (e' :: rest) (fun idx => b (i :: idx))) l).
        { induction l as [|i l IHl]; intros G; [reflexivity|]. cbn [flat_map]. rewrite IHl by (intros; apply G; now right).
          f_equal. apply IH. intros idx Hi. apply H. constructor; [apply G; now left|exact Hi]. }
        apply G. intros i Hi. apply in_seq in Hi. lia.
  Qed.

  Lemma printable_cons e e' rest : printable (e :: e' :: rest) -> e = 0%nat \/ printable (e' :: rest).
  Proof.
    intros [_ [H|H]].
    - right. split; [discriminate|]. left. exact H.
    - cbn [removelast] in H. destruct H as [H|H]; [now left|]. right. split; [discriminate|]. now right.
  Qed.

  Theorem print_ok : forall extents strides base os a, printable extents ->
    Forall (fun e => Z.of_nat e < 18446744073709551616) extents ->
    List.length strides = List.length extents ->
    (forall idx, is_index extents idx -> rd data (base + address strides idx) = Ok (a idx)) ->
    stream_impl show data extents strides base os = Ok (os ++ rendering extents (fun idx => show (a idx)))%list.
  Proof.
    induction extents as [|e rest IH]; intros strides base os a Hp Hb Hl H.
    - destruct Hp as [Hp _]. congruence.
    - destruct strides as [|st strides]; [discriminate|]. destruct rest as [|e' rest].
      + destruct strides; [|discriminate].
        assert (He : e <> 0%nat). { destruct Hp as [_ [Hp|[]]]. exact Hp. }
        rewrite (one_dim base e st os (fun i => a [i])); [|exact He|exact (Forall_inv Hb)|].
        * reflexivity.
        * intros i Hi. rewrite <- (H [i]) by (repeat constructor; exact Hi). simpl. f_equal. lia.
      + destruct strides as [|st' strides]; [discriminate|].
        change (stream_impl show data (e :: e' :: rest) (st :: st' :: strides) base os) with
          (let* os1 := (fix rows (n : nat) (i0 : Z) (os : text) : res text :=
             match n with
             | O => Ok os
             | Datatypes.S n' => let* os' := stream_impl show data (e' :: rest) (st' :: strides) (base + i0 * st) os in
                                 rows n' (i0 + 1) os'
             end) e 0 (os ++ ["["%char])%list in Ok (os1 ++ ["]"%char])%list).
        change 0 with (Z.of_nat 0).
        rewrite (rows_ok _ _ base st (fun i => rendering (e' :: rest) (fun idx => show (a (i :: idx))))).
        * cbn [bind rendering]. f_equal. rewrite <- !app_assoc. reflexivity.
        * intros j os' Hj. apply (IH (st' :: strides) (base + Z.of_nat j * st) os' (fun idx => a (j :: idx))).
          -- destruct (printable_cons e e' rest Hp) as [->|G]; [lia|exact G].
          -- exact (Forall_inv_tail Hb).
          -- simpl in *. lia.
          -- intros idx Hi. rewrite <- (H (j :: idx)) by (constructor; [lia|exact Hi]). f_equal.
             change (address (st :: st' :: strides) (j :: idx)) with (Z.of_nat j * st + address (st' :: strides) idx). lia.
  Qed.
  Theorem print_md_ok s os a : printable (md_extents s) ->
    Forall (fun e => Z.of_nat e < 18446744073709551616) (md_extents s) -> holds data s a ->
    print_md show data s os = Ok (os ++ rendering (md_extents s) (fun idx => show (a idx)))%list.
  Proof. intros Hp Hb [Hl H]. unfold print_md. now apply print_ok. Qed.

  Theorem print_empty_last : forall extents strides base os, extents <> [] -> ~ printable extents ->
    List.length strides = List.length extents -> stream_impl show data extents strides base os = Ub.
  Proof.
    induction extents as [|e rest IH]; intros strides base os Hn Hp Hl; [congruence|].
    destruct strides as [|st strides]; [discriminate|]. destruct rest as [|e' rest].
    - destruct strides; [|discriminate].
      assert (e = 0%nat) as ->. { destruct e; [reflexivity|]. exfalso. apply Hp. split; [discriminate|left; discriminate]. }
      cbn [stream_impl]. change (size_t (Z.of_nat 0 - 1)) with 18446744073709551615.
      destruct (Z.to_nat 18446744073709551615) eqn:E; [lia|]. reflexivity.
    - destruct strides as [|st' strides]; [discriminate|].
      change (stream_impl show data (e :: e' :: rest) (st :: st' :: strides) base os) with
        (let* os1 := (fix rows (n : nat) (i0 : Z) (os : text) : res text :=
           match n with
           | O => Ok os
           | Datatypes.S n' => let* os' := stream_impl show data (e' :: rest) (st' :: strides) (base + i0 * st) os in
                               rows n' (i0 + 1) os'
           end) e 0 (os ++ ["["%char])%list in Ok (os1 ++ ["]"%char])%list).
      destruct e as [|e].
      + exfalso. apply Hp. split; [discriminate|]. right. now left.
      + rewrite IH; [reflexivity|discriminate| |simpl in *; lia].
        intros [_ [G|G]]; apply Hp; (split; [discriminate|]).
        * left. exact G.
        * right. cbn [removelast]. now right.
  Qed.
End P.

(** ** The layout of SpanND *)
Lemma volume_z es : fold_right (fun e p => Z.of_nat e * p) 1 es = Z.of_nat (volume es).
Proof. unfold volume. induction es as [|e es IH]; simpl; [reflexivity|]. rewrite IH. lia. Qed.
Lemma address_right : forall es idx, is_index es idx -> address (right_strides es) idx = Z.of_nat (row_major es idx).
Proof.
  induction es as [|e es IH]; intros idx H; inversion H as [|? i ? idx' Hi Hr]; subst; [reflexivity|].
  cbn [right_strides address row_major]. rewrite volume_z, IH by assumption. lia.
Qed.
Lemma row_major_lt : forall es idx, is_index es idx -> (row_major es idx < volume es)%nat.
Proof.
  induction es as [|e es IH]; intros idx H; inversion H as [|? i ? idx' Hi Hr]; subst.
  - unfold volume. simpl. lia.
  - cbn [row_major]. change (volume (e :: es)) with (e * volume es)%nat. specialize (IH idx' Hr). nia.
Qed.
Lemma right_length es : List.length (right_strides es) = List.length es.
Proof. induction es; simpl; auto. Qed.
Theorem span_nd_holds {T} (data : list T) es a :
  (forall idx, is_index es idx -> nth_error data (row_major es idx) = Some (a idx)) -> holds data (span_nd es) a.
Proof.
  intros H. split; [apply right_length|]. intros idx Hi. change (md_extents (span_nd es)) with es in Hi.
  change (rd data (0 + address (right_strides es) idx) = Ok (a idx)). rewrite Z.add_0_l.
  rewrite address_right by assumption. unfold rd. destruct (Z.of_nat (row_major es idx) <? 0) eqn:E; [apply Z.ltb_lt in E; lia|].
  rewrite Nat2Z.id, H by assumption. reflexivity.
Qed.
Theorem span_nd_values {T} (data : list T) es d : List.length data = volume es ->
  holds data (span_nd es) (fun idx => nth (row_major es idx) data d).
Proof.
  intros H. apply span_nd_holds. intros idx Hi. apply nth_error_nth'. rewrite H. now apply row_major_lt.
Qed.

(** ** The text determines the array *)
Lemma split_sep (sep : ascii -> Prop) : forall x y c d r s,
  (forall z, In z x -> ~ sep z) -> (forall z, In z y -> ~ sep z) -> sep c -> sep d ->
  (x ++ c :: r = y ++ d :: s)%list -> x = y /\ c = d /\ r = s.
Proof.
  induction x as [|z x IH]; intros [|w y] c d r s Hx Hy Hc Hd E; simpl in E.
  - injection E as -> ->. auto.
  - injection E as -> E. exfalso. apply (Hy w); [now left|exact Hc].
  - injection E as -> E. exfalso. apply (Hx d); [now left|exact Hd].
  - injection E as -> E. destruct (IH y c d r s) as [-> [-> ->]]; auto; intros; [apply Hx|apply Hy]; now right.
Qed.
Definition sepc (z : ascii) : Prop := z = ","%char \/ z = "]"%char.
Lemma plain_sep x : plain x -> forall z, In z x -> ~ sepc z.
Proof. intros [_ [H1 H2]] z Hz [->| ->]; auto. Qed.
Lemma comma_ne : ","%char <> "]"%char.
Proof. discriminate. Qed.

Lemma join_inj : forall l1 l2 r1 r2, l1 <> [] -> l2 <> [] ->
  (forall x, In x l1 -> plain x) -> (forall x, In x l2 -> plain x) ->
  (join l1 ++ "]"%char :: r1 = join l2 ++ "]"%char :: r2)%list -> l1 = l2 /\ r1 = r2.
Proof.
  assert (A : forall (x : text) l r, l <> [] -> (join (x :: l) ++ "]"%char :: r)%list = (x ++ ","%char :: (join l ++ "]"%char :: r))%list).
  { intros x [|y l] r H; [congruence|]. cbn [join]. now rewrite <- !app_assoc. }
  induction l1 as [|x l1 IH]; intros l2 r1 r2 H1 H2 P1 P2 E; [congruence|].
  destruct l2 as [|y l2]; [congruence|].
  assert (Px := plain_sep x (P1 x (or_introl eq_refl))). assert (Py := plain_sep y (P2 y (or_introl eq_refl))).
  destruct l1 as [|x' l1], l2 as [|y' l2].
  - cbn [join] in E. destruct (split_sep sepc x y _ _ _ _ Px Py (or_intror eq_refl) (or_intror eq_refl) E) as [-> [_ ->]]. auto.
  - rewrite (A y) in E by discriminate. cbn [join] in E.
    destruct (split_sep sepc x y _ _ _ _ Px Py (or_intror eq_refl) (or_introl eq_refl) E) as [_ [F _]]. discriminate.
  - rewrite (A x) in E by discriminate. cbn [join] in E.
    destruct (split_sep sepc x y _ _ _ _ Px Py (or_introl eq_refl) (or_intror eq_refl) E) as [_ [F _]]. discriminate.
  - rewrite (A x), (A y) in E by discriminate.
    destruct (split_sep sepc x y _ _ _ _ Px Py (or_introl eq_refl) (or_introl eq_refl) E) as [-> [_ F]].
    destruct (IH (y' :: l2) r1 r2) as [-> ->]; auto; try discriminate.
    + intros z Hz. apply P1. now right.
    + intros z Hz. apply P2. now right.
Qed.

Lemma join_no_open l r : l <> [] -> (forall x, In x l -> plain x) -> forall s, (join l ++ "]"%char :: r)%list <> "["%char :: s.
Proof.
  intros H P s. destruct l as [|x l]; [congruence|]. destruct x as [|c x].
  - destruct l; discriminate.
  - assert (Hc : c <> "["%char). { intros ->. destruct (P ("["%char :: x)%list (or_introl eq_refl)) as [Q _]. apply Q. now left. }
    intros E. apply Hc. destruct l; cbn [join] in E; simpl in E; now injection E.
Qed.
Lemma rendering_open es a : es <> [] -> exists s, rendering es a = ("["%char :: s)%list.
Proof. destruct es as [|e [|e' es]]; intros H; [congruence| |]; eexists; reflexivity. Qed.

Lemma rows_inj (f g : nat -> text) : 
  (forall i r, f i <> ("]"%char :: r)%list) -> 
  forall n m i0 r1 r2,
  (forall i, (i0 <= i < i0 + n)%nat -> exists s, f i = ("["%char :: s)%list) ->
  (forall i, (i0 <= i < i0 + m)%nat -> exists s, g i = ("["%char :: s)%list) ->
  (forall i s1 s2, (i0 <= i < i0 + n)%nat -> (i0 <= i < i0 + m)%nat -> (f i ++ s1 = g i ++ s2)%list -> f i = g i /\ s1 = s2) ->
  (flat_map f (seq i0 n) ++ "]"%char :: r1 = flat_map g (seq i0 m) ++ "]"%char :: r2)%list ->
  n = m /\ r1 = r2 /\ forall i, (i0 <= i < i0 + n)%nat -> f i = g i.
Proof.
  intros _. induction n as [|n IH]; intros m i0 r1 r2 Hf Hg Hp E.
  - destruct m as [|m].
    + simpl in E. injection E as ->. repeat split. intros. lia.
    + simpl in E. destruct (Hg i0) as [s G]; [lia|]. rewrite G in E. discriminate.
  - destruct m as [|m].
    + simpl in E. destruct (Hf i0) as [s G]; [lia|]. rewrite G in E. discriminate.
    + cbn [seq flat_map] in E. rewrite <- !app_assoc in E.
      destruct (Hp i0 _ _ ltac:(lia) ltac:(lia) E) as [E0 E1].
      destruct (IH m (Datatypes.S i0) r1 r2) as [-> [-> G]]; [| | |exact E1|].
      * intros; apply Hf; lia.
      * intros; apply Hg; lia.
      * intros; apply Hp; [lia|lia|assumption].
      * repeat split. intros i Hi. destruct (Nat.eq_dec i i0) as [->|]; [exact E0|]. apply G. lia.
Qed.

Theorem rendering_inj : forall e1 e2 a1 a2 r1 r2, e1 <> [] -> e2 <> [] ->
  ~ In 0%nat e1 -> ~ In 0%nat e2 ->
  (forall idx, is_index e1 idx -> plain (a1 idx)) -> (forall idx, is_index e2 idx -> plain (a2 idx)) ->
  (rendering e1 a1 ++ r1 = rendering e2 a2 ++ r2)%list ->
  e1 = e2 /\ r1 = r2 /\ forall idx, is_index e1 idx -> a1 idx = a2 idx.
Proof.
  assert (L : forall n (a : list nat -> text), n <> 0%nat -> map (fun i => a [i]) (seq 0 n) <> []).
  { intros [|n] a H; [congruence|discriminate]. }
  assert (PL : forall n a, (forall idx, is_index [n] idx -> plain (a idx)) ->
    forall x, In x (map (fun i => a [i]) (seq 0 n)) -> plain x).
  { intros n a H x Hx. apply in_map_iff in Hx as [i [<- Hi]]. apply in_seq in Hi. apply H. repeat constructor. lia. }
  assert (F : forall e e' rest a r, e <> 0%nat -> exists s,
    (rendering (e :: e' :: rest) a ++ r)%list = ("["%char :: "["%char :: s)%list).
  { intros [|e] e' rest a r H; [congruence|]. cbn [rendering seq flat_map].
    destruct (rendering_open (e' :: rest) (fun idx => a (0%nat :: idx))) as [s E]; [discriminate|].
    cbn [rendering] in E. rewrite E. eexists. reflexivity. }
  induction e1 as [|n e1 IH]; intros e2 a1 a2 r1 r2 N1 N2 Z1 Z2 P1 P2 E; [congruence|].
  destruct e2 as [|m e2]; [congruence|].
  assert (Hn : n <> 0%nat) by (intros ->; apply Z1; now left).
  assert (Hm : m <> 0%nat) by (intros ->; apply Z2; now left).
  destruct e1 as [|n' e1], e2 as [|m' e2].
  - cbn [rendering app] in E. injection E as E. rewrite <- !app_assoc in E. simpl in E.
    destruct (join_inj _ _ r1 r2 (L n a1 Hn) (L m a2 Hm) (PL n a1 P1) (PL m a2 P2) E) as [G ->].
    assert (n = m) as ->. { apply (f_equal (@List.length _)) in G. now rewrite !map_length, !seq_length in G. }
    split; [reflexivity|]. split; [reflexivity|]. intros idx Hi. inversion Hi as [|? i ? l Hlt Hr]; subst. inversion Hr; subst.
    assert (Q : nth_error (map (fun i => a1 [i]) (seq 0 m)) i = nth_error (map (fun i => a2 [i]) (seq 0 m)) i) by now rewrite G.
    rewrite !nth_error_map in Q.
    assert (nth_error (seq 0 m) i = Some i) as W.
    { rewrite (nth_error_nth' (seq 0 m) 0%nat) by now rewrite seq_length. now rewrite seq_nth. }
    rewrite W in Q. now injection Q.
  - destruct (F m m' e2 a2 r2 Hm) as [s W]. rewrite W in E. cbn [rendering app] in E. injection E as E.
    rewrite <- app_assoc in E. exfalso. exact (join_no_open _ _ (L n a1 Hn) (PL n a1 P1) _ E).
  - destruct (F n n' e1 a1 r1 Hn) as [s W]. rewrite W in E. cbn [rendering app] in E. injection E as E.
    rewrite <- app_assoc in E. exfalso. exact (join_no_open _ _ (L m a2 Hm) (PL m a2 P2) _ (eq_sym E)).
  - change (rendering (n :: n' :: e1) a1) with
      ("["%char :: flat_map (fun i => rendering (n' :: e1) (fun idx => a1 (i :: idx))) (seq 0 n) ++ ["]"%char])%list in E.
    change (rendering (m :: m' :: e2) a2) with
      ("["%char :: flat_map (fun i => rendering (m' :: e2) (fun idx => a2 (i :: idx))) (seq 0 m) ++ ["]"%char])%list in E.
    cbn [app] in E. injection E as E. rewrite <- !app_assoc in E. cbn [app] in E.
    assert (Z1' : ~ In 0%nat (n' :: e1)) by (intros G; apply Z1; now right).
    assert (Z2' : ~ In 0%nat (m' :: e2)) by (intros G; apply Z2; now right).
    assert (K : forall i s1 s2, (0 <= i < 0 + n)%nat -> (0 <= i < 0 + m)%nat ->
      (rendering (n' :: e1) (fun idx => a1 (i :: idx)) ++ s1 = rendering (m' :: e2) (fun idx => a2 (i :: idx)) ++ s2)%list ->
      n' :: e1 = m' :: e2 /\ s1 = s2 /\ forall idx, is_index (n' :: e1) idx -> a1 (i :: idx) = a2 (i :: idx)).
    { intros i s1 s2 Hi Hj G. apply (IH (m' :: e2) _ _ s1 s2); auto; try discriminate.
      - intros idx Hx. apply P1. constructor; [lia|exact Hx].
      - intros idx Hx. apply P2. constructor; [lia|exact Hx]. }
    assert (SAME : n' :: e1 = m' :: e2).
    { destruct n as [|n]; [congruence|]. destruct m as [|m]; [congruence|].
      cbn [seq flat_map] in E. rewrite <- !app_assoc in E.
      destruct (K 0%nat _ _ ltac:(lia) ltac:(lia) E) as [G _]. exact G. }
    destruct (rows_inj (fun i => rendering (n' :: e1) (fun idx => a1 (i :: idx)))
      (fun i => rendering (m' :: e2) (fun idx => a2 (i :: idx)))) with (n := n) (m := m) (i0 := 0%nat) (r1 := r1) (r2 := r2)
      as [-> [-> G]]; [| | | |exact E|].
    + intros i r W. destruct (rendering_open (n' :: e1) (fun idx => a1 (i :: idx))) as [s V]; [discriminate|]. 
      rewrite V in W. discriminate.
    + intros i _. apply rendering_open. discriminate.
    + intros i _. apply rendering_open. discriminate.
    + intros i s1 s2 Hi Hj W. destruct (K i s1 s2 Hi Hj W) as [_ [-> V]]. split; [|reflexivity].
      rewrite <- SAME. now apply rendering_ext.
    + split; [now rewrite SAME|]. split; [reflexivity|]. intros idx Hi. inversion Hi as [|? i ? l Hlt Hr]; subst.
      assert (W := G i ltac:(lia)). cbv beta in W.
      assert (W' : (rendering (n' :: e1) (fun idx => a1 (i :: idx)) ++ [] = rendering (m' :: e2) (fun idx => a2 (i :: idx)) ++ [])%list)
        by now rewrite W.
      destruct (K i [] [] ltac:(lia) ltac:(lia) W') as [_ [_ V]]. now apply V.
Qed.

Theorem print_inj {T} (show : T -> text) (data1 data2 : list T) s1 s2 os a1 a2 out :
  md_extents s1 <> [] -> md_extents s2 <> [] -> ~ In 0%nat (md_extents s1) -> ~ In 0%nat (md_extents s2) ->
  Forall (fun e => Z.of_nat e < 18446744073709551616) (md_extents s1) ->
  Forall (fun e => Z.of_nat e < 18446744073709551616) (md_extents s2) ->
  holds data1 s1 a1 -> holds data2 s2 a2 ->
  (forall idx, is_index (md_extents s1) idx -> plain (show (a1 idx))) ->
  (forall idx, is_index (md_extents s2) idx -> plain (show (a2 idx))) ->
  print_md show data1 s1 os = Ok out -> print_md show data2 s2 os = Ok out ->
  md_extents s1 = md_extents s2 /\ forall idx, is_index (md_extents s1) idx -> show (a1 idx) = show (a2 idx).
Proof.
  intros N1 N2 Z1 Z2 B1 B2 H1 H2 P1 P2 E1 E2.
  assert (PR : forall es, es <> [] -> ~ In 0%nat es -> printable es).
  { intros es N Z. split; [exact N|]. left. intros E. apply Z. rewrite <- E. 
    destruct (exists_last N) as [l [x ->]]. rewrite last_last. apply in_or_app. right. now left. }
  rewrite (print_md_ok show data1 s1 os a1) in E1; [|now apply PR|exact B1|exact H1].
  rewrite (print_md_ok show data2 s2 os a2) in E2; [|now apply PR|exact B2|exact H2].
  injection E1 as E1. injection E2 as E2. rewrite <- E2 in E1. apply app_inv_head in E1.
  destruct (rendering_inj (md_extents s1) (md_extents s2) (fun idx => show (a1 idx)) (fun idx => show (a2 idx)) [] [])
    as [G [_ W]]; auto. now rewrite E1.
Qed.

(** ** Examples *)
Definition digit (n : nat) : text := [ascii_of_nat (48 + n)].
(** the test of tests/utils/view.cpp *)
Lemma ex_print : printable [2%nat; 2%nat; 2%nat] /\
  holds [0; 1; 2; 3; 4; 5; 6; 7]%nat (span_nd [2; 2; 2]%nat) (fun idx => nth (row_major [2; 2; 2]%nat idx) [0; 1; 2; 3; 4; 5; 6; 7]%nat 0%nat) /\
  print_md digit [0; 1; 2; 3; 4; 5; 6; 7]%nat (span_nd [2; 2; 2]%nat) [] =
    Ok (list_ascii_of_string "[[[0,1][2,3]][[4,5][6,7]]]") /\
  (* a column, by its strides *)
  print_md digit [0; 1; 2; 3; 4; 5; 6; 7]%nat (mk_mdspan 1 [4%nat] [2]) [] = Ok (list_ascii_of_string "[1,3,5,7]").
Proof.
  split; [split; [discriminate|left; discriminate]|]. split; [now apply span_nd_values|]. split; vm_compute; reflexivity.
Qed.
Lemma ex_inj : (forall i, (i < 8)%nat -> plain (digit i)) /\ ~ In 0%nat [2; 2; 2]%nat /\
  ~ printable [2; 0]%nat /\ print_md digit [0; 1]%nat (span_nd [2; 0]%nat) [] = Ub /\
  print_md digit [] (span_nd [0; 2]%nat) [] = Ok (list_ascii_of_string "[]").
Proof.
  split.
  - intros i Hi. repeat (destruct i as [|i]; [repeat split; intros [H|[]]; discriminate|]). lia.
  - split; [intros [H|[H|[H|[]]]]; discriminate|]. split.
    + intros [_ [H|[H|[]]]]; [now apply H|discriminate].
    + split; [apply print_empty_last; [discriminate| |reflexivity]|reflexivity].
      intros [_ [H|[H|[]]]]; [now apply H|discriminate].
Qed.
