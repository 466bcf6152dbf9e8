(** Row-major enumeration of index ranges, code run by every rank, sums over a partition. *)
From Coq Require Import Permutation Lia Lra.
From Verif Require Import MpiProofs MpiTransposeProofs XyvSpec.
Open Scope nat_scope.

Definition pos (lr : idx_range) (idx : nat -> Z) : nat :=
  offset (local_shape lr) (fun t => match t with Dim d => Z.to_nat (idx d - fst (select d lr)) | MPIDim _ => 0 end).

Lemma local_shape_size lr : shape_size (local_shape lr) = range_size lr.
Proof. unfold shape_size, local_shape, range_size. rewrite map_map. reflexivity. Qed.

Lemma local_shape_tags lr : tags_of (local_shape lr) = map Dim (dims lr).
Proof. unfold tags_of, local_shape, dims. rewrite !map_map. reflexivity. Qed.

Lemma local_shape_nodup lr : NoDup (dims lr) -> NoDup (tags_of (local_shape lr)).
Proof. intros H. rewrite local_shape_tags. apply NoDup_map_inj; [congruence|exact H]. Qed.

Lemma in_range_bounds lr idx : NoDup (dims lr) -> in_range idx lr ->
  in_bounds (local_shape lr) (fun t => match t with Dim d => Z.to_nat (idx d - fst (select d lr)) | MPIDim _ => 0 end).
Proof.
  intros Hn Hi t n Ht. unfold local_shape in Ht. apply in_map_iff in Ht. destruct Ht as ([d [f m]] & E & Hin).
  simpl in E. injection E as <- <-. rewrite (select_in lr d f m Hn Hin). simpl.
  specialize (Hi d f m Hin). lia.
Qed.

Lemma pos_lt lr idx : NoDup (dims lr) -> in_range idx lr -> pos lr idx < range_size lr.
Proof. intros Hn Hi. rewrite <- local_shape_size. apply offset_lt, in_range_bounds; auto. Qed.

Lemma global_in lr k : NoDup (dims lr) -> k < range_size lr -> in_range (global_of lr k) lr.
Proof.
  intros Hn Hk d f n Hi. unfold global_of. rewrite (select_in lr d f n Hn Hi). simpl.
  assert (decode (local_shape lr) k (Dim d) < n); [|lia].
  apply decode_in_bounds; auto.
  - rewrite local_shape_size; auto.
  - apply local_shape_nodup; auto.
  - unfold local_shape. apply in_map_iff. exists (d, (f, n)). auto.
Qed.

Lemma pos_global lr k : NoDup (dims lr) -> k < range_size lr -> pos lr (global_of lr k) = k.
Proof.
  intros Hn Hk. unfold pos.
  transitivity (offset (local_shape lr) (decode (local_shape lr) k)).
  - apply offset_ext. intros t Ht. rewrite local_shape_tags in Ht. apply in_map_iff in Ht.
    destruct Ht as (d & <- & _). unfold global_of. lia.
  - apply offset_decode; [rewrite local_shape_size; auto|apply local_shape_nodup; auto].
Qed.

Lemma global_pos lr idx d : NoDup (dims lr) -> in_range idx lr -> In d (dims lr) ->
  global_of lr (pos lr idx) d = idx d.
Proof.
  intros Hn Hi Hd. unfold global_of, pos.
  rewrite decode_offset.
  - pose proof (in_select lr d Hd) as Hs. destruct (select d lr) as [f n] eqn:E. cbn [fst].
    specialize (Hi d f n Hs). lia.
  - apply in_range_bounds; auto.
  - apply local_shape_nodup; auto.
  - rewrite local_shape_tags. apply in_map; auto.
Qed.

Lemma pos_ext lr i j : (forall d, In d (dims lr) -> i d = j d) -> pos lr i = pos lr j.
Proof.
  intros H. unfold pos. apply offset_ext. intros t Ht. rewrite local_shape_tags in Ht. apply in_map_iff in Ht.
  destruct Ht as (d & <- & Hd). rewrite H; auto.
Qed.

Lemma field_at_pos {A} lr (b : list A) idx : field_at lr b idx = rd b (Z.of_nat (pos lr idx)).
Proof. reflexivity. Qed.

Lemma field_at_ext {A} lr (b : list A) i j : (forall d, In d (dims lr) -> i d = j d) ->
  field_at lr b i = field_at lr b j.
Proof. intros H. rewrite !field_at_pos. rewrite (pos_ext lr i j H). reflexivity. Qed.

Lemma in_range_ext lr i j : (forall d, In d (dims lr) -> i d = j d) -> in_range i lr -> in_range j lr.
Proof.
  intros H Hi d f n Hin. rewrite <- H; [apply (Hi d f n Hin)|]. apply (in_map fst) in Hin. exact Hin.
Qed.

Lemma buffer_ext lr b F i j : buffer_holds lr b F -> in_range i lr ->
  (forall d, In d (dims lr) -> i d = j d) -> F i = F j.
Proof.
  intros [_ H] Hi He. pose proof (H i Hi) as Hx. pose proof (H j (in_range_ext lr i j He Hi)) as Hy.
  rewrite (field_at_ext lr b i j He) in Hx. congruence.
Qed.

Lemma buffer_mapM lr (f : nat -> res R) (G : nat -> R) (H : (nat -> Z) -> R) : NoDup (dims lr) ->
  (forall k, k < range_size lr -> f k = Ok (G k)) ->
  (forall idx, in_range idx lr -> G (pos lr idx) = H idx) ->
  exists b, mapM f (seq 0 (range_size lr)) = Ok b /\ buffer_holds lr b H.
Proof.
  intros Hn Hf HG. exists (map G (seq 0 (range_size lr))). split.
  - apply mapM_seq_ok. intros k Hk. apply Hf. lia.
  - split; [rewrite map_length, seq_length; reflexivity|]. intros idx Hi.
    rewrite field_at_pos. pose proof (pos_lt lr idx Hn Hi) as Hp.
    apply nth_error_rd. rewrite <- (HG idx Hi). apply map_nth_error.
    rewrite nth_error_nth' with (d := 0) by (rewrite seq_length; auto). rewrite seq_nth; auto.
Qed.

(** ** Code run by every rank *)
Lemma every_rank_holds P l l' bufs F F' (op : nat -> list R -> res (list R)) :
  holds_field P l bufs F ->
  (forall r b, r < P -> buffer_holds (l r) b F -> exists b', op r b = Ok b' /\ buffer_holds (l' r) b' F') ->
  exists bufs', every_rank P op bufs = Ok bufs' /\ holds_field P l' bufs' F'.
Proof.
  intros [Hl Hb] Hop. unfold every_rank.
  destruct (mapM_seq_ex (fun r => let* x := rd bufs (Z.of_nat r) in op r x)
              (fun r b' => buffer_holds (l' r) b' F') P 0) as (bufs' & E & Hlen & Hq).
  - intros r Hr. destruct (Hb r) as (b & Eb & L & HF); [lia|].
    rewrite (nth_error_rd bufs r b Eb). cbn [bind]. apply Hop; [lia|split; auto].
  - exists bufs'. split; [exact E|]. split; [exact Hlen|exact Hq].
Qed.

(** ** Sums over a partition *)
Open Scope R_scope.

Lemma fold_sum_perm (h : list Z -> R) (a b : list (list Z)) : Permutation a b ->
  fold_right (fun t s => h t + s) 0 a = fold_right (fun t s => h t + s) 0 b.
Proof. induction 1; simpl; lra. Qed.

Lemma fold_sum_app (h : list Z -> R) a b :
  fold_right (fun t s => h t + s) 0 (a ++ b) = fold_right (fun t s => h t + s) 0 a + fold_right (fun t s => h t + s) 0 b.
Proof. induction a; simpl; lra. Qed.

Lemma Rsum_fold_seq n m (f : nat -> R) : Rsum n (fun k => f (m + k)%nat) = fold_right (fun k s => f k + s) 0 (seq m n).
Proof.
  revert m; induction n as [|n IH]; intros m; simpl seq; simpl fold_right; [reflexivity|].
  rewrite <- IH. rewrite Rsum_first. rewrite Nat.add_0_r. f_equal. apply Rsum_ext. intros k Hk. f_equal. lia.
Qed.

Lemma fold_right_map {X Y} (f : Y -> R) (p : X -> Y) l :
  fold_right (fun t s => f t + s) 0 (map p l) = fold_right (fun x s => f (p x) + s) 0 l.
Proof. induction l; simpl; congruence. Qed.

(** an index seen as the list of its coordinates *)
Definition tuple (g : idx_range) (idx : nat -> Z) : list Z := map idx (dims g).
Definition of_tuple (g : idx_range) (t : list Z) (d : nat) : Z :=
  fold_right (fun e s => if Nat.eqb (fst e) d then snd e else s) 0%Z (combine (dims g) t).

Lemma tuple_ext g i j : tuple g i = tuple g j <-> forall d, In d (dims g) -> i d = j d.
Proof.
  unfold tuple. split.
  - intros H d Hd. induction (dims g) as [|e l IH]; [destruct Hd|].
    simpl in H. injection H as H1 H2. destruct Hd as [->|Hd]; auto.
  - intros H. apply map_ext_in. exact H.
Qed.

Lemma of_tuple_at g idx d : In d (dims g) -> of_tuple g (tuple g idx) d = idx d.
Proof.
  unfold of_tuple, tuple. induction (dims g) as [|e l IH]; [intros []|].
  simpl. intros Hd. destruct (Nat.eqb_spec e d) as [->|He]; [reflexivity|].
  destruct Hd as [->|Hd]; [contradiction|]. auto.
Qed.

Lemma in_of_tuple g idx lr : dims lr = dims g -> in_range idx lr -> in_range (of_tuple g (tuple g idx)) lr.
Proof.
  intros Hd. apply in_range_ext. intros d Hin. symmetry. apply of_tuple_at. rewrite <- Hd. exact Hin.
Qed.

(** the points of a range *)
Definition points (g lr : idx_range) : list (list Z) := map (fun k => tuple g (global_of lr k)) (seq 0 (range_size lr)).

Lemma in_points g lr t : NoDup (dims g) -> dims lr = dims g ->
  (In t (points g lr) <-> exists idx, in_range idx lr /\ tuple g idx = t).
Proof.
  intros Hn Hd. unfold points. rewrite in_map_iff. split.
  - intros (k & <- & Hk). apply in_seq in Hk. exists (global_of lr k). split; auto.
    apply global_in; [rewrite Hd; auto|lia].
  - intros (idx & Hi & <-). exists (pos lr idx). split.
    + apply tuple_ext. intros d Hdd. apply global_pos; [rewrite Hd; auto|auto|rewrite Hd; auto].
    + apply in_seq. split; [lia|]. simpl. apply pos_lt; [rewrite Hd; auto|auto].
Qed.

Lemma points_nodup g lr : NoDup (dims g) -> dims lr = dims g -> NoDup (points g lr).
Proof.
  intros Hn Hd. unfold points.
  assert (H : forall k j, (k < range_size lr)%nat -> (j < range_size lr)%nat ->
              tuple g (global_of lr k) = tuple g (global_of lr j) -> k = j).
  { intros k j Hk Hj E. rewrite <- (pos_global lr k), <- (pos_global lr j) by (rewrite ?Hd; auto).
    apply pos_ext. rewrite Hd. apply tuple_ext. exact E. }
  clear Hn Hd. revert H. generalize (range_size lr) as n. intros n H.
  assert (HH : forall m s, (s + m <= n)%nat -> NoDup (map (fun k => tuple g (global_of lr k)) (seq s m))).
  { induction m as [|m IH]; intros s Hs; simpl; constructor.
    - rewrite in_map_iff. intros (k & E & Hk). apply in_seq in Hk. apply H in E; lia.
    - apply IH. lia. }
  apply (HH n 0%nat). lia.
Qed.

Lemma nodup_concat {X} (ls : list (list X)) : (forall l, In l ls -> NoDup l) ->
  (forall i j a b x, nth_error ls i = Some a -> nth_error ls j = Some b -> In x a -> In x b -> i = j) ->
  NoDup (concat ls).
Proof.
  induction ls as [|a ls IH]; intros H1 H2; simpl; [constructor|].
  assert (Hr : NoDup (concat ls)).
  { apply IH; [intros; apply H1; right; auto|].
    intros i j a' b' x Ha Hb Hx Hy. assert (S i = S j); [|lia]. apply (H2 (S i) (S j) a' b' x); auto. }
  assert (Ha : NoDup a) by (apply H1; left; auto).
  assert (Hx : forall x, In x a -> ~ In x (concat ls)).
  { intros x Hx Hc. apply in_concat in Hc. destruct Hc as (b & Hb & Hxb).
    apply In_nth_error in Hb. destruct Hb as (j & Hj).
    assert (0%nat = S j); [|lia]. apply (H2 0%nat (S j) a b x); auto. }
  clear - Hr Ha Hx. induction a as [|x a IH]; simpl; auto. inversion Ha; subst. constructor.
  - rewrite in_app_iff. intros [Hi|Hi]; [contradiction|]. apply (Hx x); [left|]; auto.
  - apply IH; auto. intros y Hy. apply Hx. right; auto.
Qed.

Lemma Rsum_concat {X} (h : X -> R) (f : nat -> list X) P :
  Rsum P (fun r => fold_right (fun t s => h t + s) 0 (f r)) =
  fold_right (fun t s => h t + s) 0 (concat (map f (seq 0 P))).
Proof.
  assert (A : forall (a b : list X), fold_right (fun t s => h t + s) 0 (a ++ b) =
     fold_right (fun t s => h t + s) 0 a + fold_right (fun t s => h t + s) 0 b).
  { induction a; intros; simpl; [lra|]. rewrite IHa. lra. }
  transitivity (fold_right (fun r s => fold_right (fun t s => h t + s) 0 (f r) + s) 0 (seq 0 P)).
  - apply (Rsum_fold_seq P 0 (fun r => fold_right (fun t s => h t + s) 0 (f r))).
  - induction (seq 0 P) as [|r l IH]; simpl; [reflexivity|]. rewrite A, IH. reflexivity.
Qed.

Lemma partition_sum P local g (h : (nat -> Z) -> R) : NoDup (dims g) -> partitions P local g ->
  (forall r, (r < P)%nat -> dims (local r) = dims g) ->
  (forall i j, in_range i g -> (forall d, In d (dims g) -> i d = j d) -> h i = h j) ->
  Rsum P (fun r => Rsum (range_size (local r)) (fun k => h (global_of (local r) k))) =
  Rsum (range_size g) (fun k => h (global_of g k)).
Proof.
  intros Hn [Hex Hin] Hd Hext.
  set (H := fun t => h (of_tuple g t)).
  assert (Hs : forall lr, dims lr = dims g -> (forall idx, in_range idx lr -> in_range idx g) ->
     Rsum (range_size lr) (fun k => h (global_of lr k)) = fold_right (fun t s => H t + s) 0 (points g lr)).
  { intros lr Hlr Hsub. unfold points. rewrite fold_right_map.
    rewrite <- (Rsum_fold_seq (range_size lr) 0 (fun k => H (tuple g (global_of lr k)))).
    apply Rsum_ext. intros k Hk. unfold H. apply Hext.
    - apply Hsub. apply global_in; [rewrite Hlr; auto|lia].
    - intros d Hdd. rewrite of_tuple_at; auto. }
  rewrite (Rsum_ext P _ (fun r => fold_right (fun t s => H t + s) 0 (points g (local r)))).
  2:{ intros r Hr. apply Hs; [apply Hd; lia|]. intros idx Hi. apply (Hin r); auto; lia. }
  rewrite Hs by auto. rewrite (Rsum_concat H (fun r => points g (local r))).
  apply fold_sum_perm. apply NoDup_Permutation.
  - apply nodup_concat.
    + intros l Hl. apply in_map_iff in Hl. destruct Hl as (r & <- & Hr). apply in_seq in Hr.
      apply points_nodup; auto. apply Hd; lia.
    + assert (Hnth : forall i a, nth_error (map (fun r => points g (local r)) (seq 0 P)) i = Some a ->
        (i < P)%nat /\ a = points g (local i)).
      { intros i a E. assert (Hi : (i < P)%nat).
        { assert (nth_error (map (fun r => points g (local r)) (seq 0 P)) i <> None) as HH by congruence.
          apply nth_error_Some in HH. rewrite map_length, seq_length in HH. exact HH. }
        split; auto. erewrite map_nth_error in E.
        - injection E as <-. reflexivity.
        - rewrite nth_error_nth' with (d := 0%nat) by (rewrite seq_length; auto). rewrite seq_nth; auto. }
      intros i j a b x Ha Hb Hxa Hxb.
      destruct (Hnth i a Ha) as [Hi ->]. destruct (Hnth j b Hb) as [Hj ->].
      apply in_points in Hxa; [|auto|apply Hd; auto]. apply in_points in Hxb; [|auto|apply Hd; auto].
      destruct Hxa as (u & Hu & <-). destruct Hxb as (v & Hv & E).
      assert (Hv' : in_range u (local j)).
      { apply (in_range_ext (local j) v u); auto. rewrite Hd by auto. apply tuple_ext. exact E. }
      destruct (Hex u) as (r & Hr & _ & Hu').
      { apply (Hin i); auto. }
      transitivity r; [|symmetry]; auto.
  - apply points_nodup; auto.
  - intros t. rewrite in_concat. split.
    + intros (l & Hl & Ht). apply in_map_iff in Hl. destruct Hl as (r & <- & Hr). apply in_seq in Hr.
      apply in_points in Ht; [|auto|apply Hd; lia]. destruct Ht as (idx & Hi & <-).
      apply in_points; auto. exists idx. split; auto. apply (Hin r); auto; lia.
    + intros Ht. apply in_points in Ht; auto. destruct Ht as (idx & Hi & <-).
      destruct (Hex idx Hi) as (r & Hr & Hir & _). exists (points g (local r)). split.
      * apply in_map_iff. exists r. split; auto. apply in_seq. lia.
      * apply in_points; [auto|apply Hd; auto|]. exists idx. auto.
Qed.
