(** Proofs about the count of the points of every cell (non_uniform_interpolation_points.hpp) *)
From Coq Require Import Sorted.
From Verif Require Import Lib QuadModel OnionModel OnionProofs MshModel MshSpec.
Open Scope R_scope.

Lemma increasing_sorted l : increasing l <-> StronglySorted Rlt l.
Proof.
  induction l as [|x l IH].
  - split; [intros _; constructor|]. intros _ i j Hij; cbn in Hij; lia.
  - split.
    + intros H. constructor.
      * apply IH. intros i j Hij. specialize (H (S i) (S j)). cbn in H. apply H; lia.
      * apply Forall_forall. intros y Hy. destruct (In_nth l y 0 Hy) as (j & Hj & <-).
        specialize (H 0%nat (S j)). cbn in H. apply H; lia.
    + intros H. inversion_clear H as [|? ? HS HF]. apply IH in HS.
      intros [|i] [|j] Hij; cbn in Hij |- *; try lia.
      * rewrite Forall_forall in HF. apply HF, nth_In. lia.
      * apply HS; lia.
Qed.

Lemma sorted_mid (P : list R) y xs :
  StronglySorted Rlt (P ++ y :: xs) ->
  (forall x, In x P -> x < y) /\ (forall x, In x xs -> y < x).
Proof.
  induction P as [|p P IH]; cbn; intros H; inversion_clear H as [|? ? HS HF]; rewrite Forall_forall in HF.
  - split; [intros x []|exact HF].
  - destruct (IH HS) as [A B]. split; [|exact B].
    intros x [<-|Hx]; [|auto]. apply HF. apply in_or_app; right; left; reflexivity.
Qed.

Lemma in_cell_true b k x : in_cell b k x = true <-> b (k - 1)%nat <= x <= b k.
Proof.
  unfold in_cell. destruct (Rle_lt_dec (b (k - 1)%nat) x), (Rle_lt_dec x (b k)); split; intros; try lra; auto; discriminate.
Qed.
Lemma in_cell_false b k x : (x < b (k - 1)%nat \/ b k < x) -> in_cell b k x = false.
Proof.
  intros H. destruct (in_cell b k x) eqn:E; [|reflexivity]. apply in_cell_true in E. lra.
Qed.

Lemma count_app b k P Q : points_in_cell b k (P ++ Q) = (points_in_cell b k P + points_in_cell b k Q)%nat.
Proof. unfold points_in_cell. rewrite filter_app, app_length. reflexivity. Qed.
Lemma count_none b k P : (forall x, In x P -> in_cell b k x = false) -> points_in_cell b k P = 0%nat.
Proof.
  intros H. unfold points_in_cell. induction P as [|p P IH]; [reflexivity|]. cbn.
  rewrite (H p (or_introl eq_refl)). apply IH. intros; apply H; right; auto.
Qed.
Lemma count_all b k P : (forall x, In x P -> in_cell b k x = true) -> points_in_cell b k P = length P.
Proof.
  intros H. unfold points_in_cell. induction P as [|p P IH]; [reflexivity|]. cbn.
  rewrite (H p (or_introl eq_refl)). cbn. f_equal. apply IH. intros; apply H; right; auto.
Qed.
Lemma count_one b k y : in_cell b k y = true -> points_in_cell b k [y] = 1%nat.
Proof. intros H. rewrite count_all; [reflexivity|]. intros x [<-|[]]; exact H. Qed.

Lemma in_cell_last b k (P : list R) y :
  points_in_cell b k (P ++ [y]) = (points_in_cell b k P + if in_cell b k y then 1 else 0)%nat.
Proof. rewrite count_app. unfold points_in_cell. cbn. destruct (in_cell b k y); reflexivity. Qed.

Section Scan.
Variables (bs : bsplines) (n : nat) (b : nat -> R) (d : nat).
Hypothesis Hd : bs_degree bs = Z.of_nat d.
Hypothesis Hn : (1 <= n)%nat.
Hypothesis Hb : forall k, (k < n)%nat -> b k < b (k + 1)%nat.
Hypothesis Hknot : forall k, (k <= n)%nat -> bs_knot bs (Z.of_nat k) = Ok (b k).

Lemma b_mono i j : (i <= j <= n)%nat -> b i <= b j.
Proof.
  intros [Hij Hjn]. induction Hij as [|j Hij IH]; [lra|].
  specialize (Hb j ltac:(lia)). replace (j + 1)%nat with (S j) in Hb by lia.
  assert (b i <= b j) by (apply IH; lia). lra.
Qed.

Lemma check_cases m : (0 <= m)%Z ->
  (check_n_points_in_cell bs m = Ok tt /\ (m <= Z.of_nat d + 1)%Z) \/
  (check_n_points_in_cell bs m = Throw /\ (Z.of_nat d + 1 < m)%Z).
Proof.
  intros _. unfold check_n_points_in_cell. rewrite Hd.
  destruct (Z.of_nat d + 1 <? m)%Z eqn:E; [right|left]; split; auto; lia.
Qed.

(** ** A throw means that a cell really holds too many points *)
Lemma scan_sound xs : forall P T m k,
  StronglySorted Rlt ((P ++ T) ++ xs) ->
  (forall A y z B, (P ++ T) ++ xs = A ++ y :: z :: B -> y < b n) ->
  (forall x, In x xs -> b 0%nat <= x) -> (T = [] -> k = 1%nat) ->
  (1 <= k)%nat -> ((k <= n)%nat \/ xs = []) ->
  m = Z.of_nat (length T) ->
  (forall x, In x T -> b (k - 1)%nat <= x) -> ((2 <= length T)%nat -> forall x, In x T -> x < b k) ->
  (2 <= length T -> k <= n)%nat ->
  match (let* (m', _) := scan bs m (Z.of_nat k) xs in check_n_points_in_cell bs m') with
  | Ok _ => True
  | Throw => exists j, (1 <= j <= n)%nat /\ (d + 1 < points_in_cell b j ((P ++ T) ++ xs))%nat
  | _ => False
  end.
Proof.
  assert (TOO : forall P T xs k, (1 <= k <= n)%nat -> (d + 1 < length T)%nat ->
            (forall x, In x T -> b (k - 1)%nat <= x <= b k) ->
            exists j, (1 <= j <= n)%nat /\ (d + 1 < points_in_cell b j ((P ++ T) ++ xs))%nat).
  { intros P T xs0 k Hk HT H. exists k. split; [exact Hk|].
    rewrite !count_app, (count_all b k T); [lia|]. intros x Hx. apply in_cell_true. auto. }
  induction xs as [|y xs IH]; intros P T m k HS HIN HB0 HTE Hk1 Hkn -> HT1 HT2 HT3.
  - cbn [scan bind]. destruct (check_cases (Z.of_nat (length T))) as [[-> _]|[-> HC]]; [lia|exact I|].
    apply (TOO P T [] k); [split; [lia|apply HT3; lia]|lia|]. intros x Hx. split; [auto|].
    assert (x < b k) by (apply HT2; [lia|exact Hx]). lra.
  - destruct (sorted_mid _ _ _ HS) as [HL HR]. 
    assert (HK : (k <= n)%nat) by (destruct Hkn as [H|H]; [exact H|discriminate]).
    assert (HL' : forall x, In x T -> x < y) by (intros; apply HL, in_or_app; auto).
    assert (NEXT : b k <= y -> ((k + 1 <= n)%nat \/ xs = [])).
    { intros Hy. destruct xs as [|z xs]; [right; reflexivity|]. left.
      specialize (HIN (P ++ T) y z xs eq_refl).
      destruct (Nat.eq_dec k n) as [->|]; [lra|lia]. }
    cbn [scan]. rewrite Hknot by exact HK. cbn [bind].
    destruct (Req_EM_T y (b k)) as [Ey|Ny].
    + destruct (check_cases (Z.of_nat (length T) + 1)) as [[-> _]|[-> HC]]; [lia| |].
      * cbn [bind]. replace (Z.of_nat k + 1)%Z with (Z.of_nat (k + 1)) by lia.
        specialize (IH (P ++ T) [y] 1%Z (k + 1)%nat). 
        rewrite <- app_assoc in IH. cbn [app] in IH.
        apply IH; [exact HS|exact HIN|intros x Hx; apply HB0; right; exact Hx|discriminate|lia|apply NEXT; lra|reflexivity| | |cbn; lia].
        -- intros x [<-|[]]. replace (k + 1 - 1)%nat with k by lia. lra.
        -- cbn. lia.
      * cbn [bind]. replace ((P ++ T) ++ y :: xs) with ((P ++ (T ++ [y])) ++ xs) by (rewrite <- !app_assoc; reflexivity).
        apply (TOO P (T ++ [y]) xs k); [lia|rewrite app_length; cbn; lia|].
        intros x Hx. apply in_app_or in Hx. destruct Hx as [Hx|[<-|[]]].
        -- specialize (HL' x Hx). specialize (HT1 x Hx). lra.
        -- split; [|lra]. rewrite Ey. apply b_mono; lia.
    + destruct (Rltb (b k) y) eqn:El.
      * apply Rltb_true in El.
        destruct (check_cases (Z.of_nat (length T))) as [[-> _]|[-> HC]]; [lia| |].
        -- cbn [bind]. replace (Z.of_nat k + 1)%Z with (Z.of_nat (k + 1)) by lia.
           specialize (IH (P ++ T) [y] 1%Z (k + 1)%nat).
           rewrite <- app_assoc in IH. cbn [app] in IH.
           apply IH; [exact HS|exact HIN|intros x Hx; apply HB0; right; exact Hx|discriminate|lia|apply NEXT; lra|reflexivity| | |cbn; lia].
           ++ intros x [<-|[]]. replace (k + 1 - 1)%nat with k by lia. lra.
           ++ cbn. lia.
        -- cbn [bind]. apply (TOO P T (y :: xs) k); [lia|lia|].
           intros x Hx. split; [auto|]. assert (x < b k) by (apply HT2; [lia|exact Hx]). lra.
      * apply Rltb_false in El.
        specialize (IH P (T ++ [y]) (Z.of_nat (length T) + 1)%Z k).
        replace (P ++ T ++ [y]) with ((P ++ T) ++ [y]) in IH by (rewrite <- app_assoc; reflexivity).
        rewrite <- app_assoc in IH. cbn [app] in IH.
        assert (LY : y < b k) by lra.
        destruct (Nat.eq_dec (length T) 0) as [Z0|NZ].
        -- destruct T as [|t T]; [|cbn in Z0; lia]. cbn [app length] in IH |- *.
           specialize (HTE eq_refl). subst k. specialize (HB0 y (or_introl eq_refl)) as HY.
           apply IH; [exact HS|exact HIN|intros x Hx; apply HB0; right; exact Hx|discriminate|lia|left; exact HK|reflexivity| | |cbn; lia].
           ++ intros x [<-|[]]; exact HY.
           ++ cbn. lia.
        -- apply IH; [exact HS|exact HIN|intros x Hx; apply HB0; right; exact Hx|destruct T; discriminate|lia|left; exact HK|rewrite app_length; cbn; lia| | |intros; exact HK].
           ++ intros x Hx. apply in_app_or in Hx. destruct Hx as [Hx|[<-|[]]]; [auto|].
              destruct T as [|t T]; [cbn in NZ; lia|].
              specialize (HT1 t (or_introl eq_refl)). specialize (HL' t (or_introl eq_refl)). lra.
           ++ intros _ x Hx. apply in_app_or in Hx. destruct Hx as [Hx|[<-|[]]]; [|exact LY].
              specialize (HL' x Hx). lra.
Qed.

Lemma check_sound l :
  increasing l -> (forall i, (i + 1 < length l)%nat -> nth i l 0 < b n) -> (forall x, In x l -> b 0%nat <= x) ->
  check_cells bs l = Ok tt \/
  (check_cells bs l = Throw /\ exists j, (1 <= j <= n)%nat /\ (d + 1 < points_in_cell b j l)%nat).
Proof.
  intros HS HIN H0. apply increasing_sorted in HS.
  assert (HIN' : forall A y z B, ([] ++ []) ++ l = A ++ y :: z :: B -> y < b n).
  { cbn [app]. intros A y z B ->. specialize (HIN (length A)). rewrite nth_middle in HIN. apply HIN.
    rewrite app_length; cbn; lia. }
  assert (H1 : ((1 <= n)%nat \/ l = [])) by (left; exact Hn).
  assert (H2 : forall x : R, In x [] -> b (1 - 1)%nat <= x) by (intros x []).
  assert (H3 : (2 <= length (@nil R))%nat -> forall x, In x [] -> x < b 1%nat) by (cbn; intros; lia).
  assert (H4 : (2 <= length (@nil R))%nat -> (1 <= n)%nat) by (cbn; intros; lia).
  pose proof (scan_sound l [] [] 0%Z 1%nat HS HIN' H0 (fun _ => eq_refl) (le_n 1) H1 eq_refl H2 H3 H4) as H.
  cbn [app] in H. unfold check_cells. change (Z.of_nat 1) with 1%Z in H.
  destruct (let* (n_points_in_cell, _) := scan bs 0 1 l in check_n_points_in_cell bs n_points_in_cell) as [[]| | |];
    [left; reflexivity|right; split; [reflexivity|exact H]|destruct H|destruct H].
Qed.

(** ** Without empty cells every cell is counted *)
Lemma scan_complete xs : forall P m k,
  StronglySorted Rlt (P ++ xs) ->
  (forall A y z B, P ++ xs = A ++ y :: z :: B -> y < b n) ->
  (forall x, In x (P ++ xs) -> b 0%nat <= x) ->
  (forall j, (2 <= j <= n - 1)%nat -> exists x, In x (P ++ xs) /\ b (j - 1)%nat <= x < b j) ->
  (1 <= k)%nat -> ((k <= n)%nat \/ xs = []) ->
  (forall x, In x P -> (k <= n)%nat -> x < b k \/ (k = n /\ xs = [])) ->
  ((k <= n)%nat -> (Z.of_nat (points_in_cell b k P) <= m)%Z) -> (0 <= m)%Z ->
  (forall j, (1 <= j < k)%nat -> (j <= n)%nat -> (points_in_cell b j P <= d + 1)%nat) ->
  (forall j x, (1 <= j < k)%nat -> (j <= n)%nat -> In x xs -> b j < x) ->
  (let* (m', _) := scan bs m (Z.of_nat k) xs in check_n_points_in_cell bs m') = Ok tt ->
  (forall j, (1 <= j <= n)%nat -> (points_in_cell b j (P ++ xs) <= d + 1)%nat).
Proof.
  induction xs as [|y xs IH]; intros P m k HS HIN HB0 HG Hk1 Hkn HP Hm Hm0 HC HX E.
  - rewrite app_nil_r. intros j Hj. cbn [scan bind] in E.
    destruct (check_cases m Hm0) as [[_ LE]|[Q _]]; [|congruence].
    destruct (lt_eq_lt_dec j k) as [[L| ->]|G].
    + apply HC; lia.
    + specialize (Hm ltac:(lia)). lia.
    + rewrite count_none; [lia|]. intros x Hx. apply in_cell_false. left.
      destruct (HP x Hx ltac:(lia)) as [H|[H _]]; [|lia].
      assert (b k <= b (j - 1)%nat) by (apply b_mono; lia). lra.
  - destruct (sorted_mid _ _ _ HS) as [HL HR].
    assert (HK : (k <= n)%nat) by (destruct Hkn as [H|H]; [exact H|discriminate]).
    assert (HP' : forall x, In x P -> x < b k).
    { intros x Hx; destruct (HP x Hx HK) as [H|[_ H]]; [exact H|discriminate]. }
    specialize (Hm HK).
    assert (APP : P ++ y :: xs = (P ++ [y]) ++ xs) by (rewrite <- app_assoc; reflexivity).
    assert (EMPTY : points_in_cell b (k + 1) P = 0%nat).
    { apply count_none. intros x Hx. apply in_cell_false. left. replace (k + 1 - 1)%nat with k by lia. auto. }
    assert (ADV : b k <= y -> (Z.of_nat (points_in_cell b k (P ++ [y])) <= Z.of_nat d + 1)%Z ->
              (let* (m', _) := scan bs 1 (Z.of_nat (k + 1)) xs in check_n_points_in_cell bs m') = Ok tt ->
              forall j, (1 <= j <= n)%nat -> (points_in_cell b j (P ++ y :: xs) <= d + 1)%nat).
    { intros Hy HCk E'. rewrite APP in HS, HIN, HB0, HG |- *.
      apply (IH (P ++ [y]) 1%Z (k + 1)%nat); auto; try lia.
      - destruct xs as [|z xs]; [right; reflexivity|]. left.
        specialize (HIN P y z xs). rewrite <- app_assoc in HIN. specialize (HIN eq_refl).
        destruct (Nat.eq_dec k n) as [Ekn|]; [rewrite Ekn in Hy; lra|lia].
      - intros x Hx Hkn'. 
        assert (y < b (k + 1)%nat \/ (k + 1 = n)%nat /\ xs = []) as [LT|RT].
        { destruct (Nat.eq_dec (k + 1) n) as [Ekn|].
          - destruct xs as [|z xs]; [right; auto|]. left.
            specialize (HIN P y z xs). rewrite <- app_assoc in HIN. rewrite Ekn. apply HIN. reflexivity.
          - left. destruct (HG (k + 1)%nat) as (z & Hz & Hz1); [lia|].
            replace (k + 1 - 1)%nat with k in Hz1 by lia.
            apply in_app_or in Hz. destruct Hz as [Hz|Hz].
            + apply in_app_or in Hz. destruct Hz as [Hz|[<-|[]]]; [|lra].
              specialize (HP' z Hz). lra.
            + specialize (HR z Hz). lra. }
        + left. apply in_app_or in Hx. destruct Hx as [Hx|[<-|[]]]; [|exact LT].
          specialize (HP' x Hx). lra.
        + right; exact RT.
      - intros _. rewrite count_app, EMPTY. unfold points_in_cell. cbn. destruct (in_cell _ _ _); cbn; lia.
      - intros j Hj Hjn. destruct (Nat.eq_dec j k) as [->|]; [lia|].
        rewrite count_app, (count_none b j [y]).
        + specialize (HC j ltac:(lia) Hjn). lia.
        + intros x [<-|[]]. apply in_cell_false. right. apply HX; [lia|lia|left; reflexivity].
      - intros j x Hj Hjn Hx. specialize (HR x Hx).
        assert (b j <= b k) by (apply b_mono; lia). lra. }
    cbn [scan] in E. rewrite Hknot in E by exact HK. cbn [bind] in E.
    replace (Z.of_nat k + 1)%Z with (Z.of_nat (k + 1)) in E by lia.
    destruct (Req_EM_T y (b k)) as [Ey|Ny].
    + destruct (check_cases (m + 1)) as [[Q LE]|[Q _]]; [lia| |rewrite Q in E; discriminate].
      rewrite Q in E. cbn [bind] in E. apply ADV; [lra| |exact E].
      rewrite in_cell_last. destruct (in_cell b k y); lia.
    + destruct (Rltb (b k) y) eqn:El.
      * apply Rltb_true in El.
        destruct (check_cases m Hm0) as [[Q LE]|[Q _]]; [|rewrite Q in E; discriminate].
        rewrite Q in E. cbn [bind] in E. apply ADV; [lra| |exact E].
        rewrite in_cell_last, in_cell_false by lra. lia.
      * apply Rltb_false in El.
        rewrite APP in HS, HIN, HB0, HG |- *.
        apply (IH (P ++ [y]) (m + 1)%Z k); auto; try lia.
        -- intros x Hx _. left. apply in_app_or in Hx. destruct Hx as [Hx|[<-|[]]]; [auto|lra].
        -- intros _. rewrite in_cell_last. destruct (in_cell b k y); lia.
        -- intros j Hj Hjn. rewrite count_app, (count_none b j [y]).
           ++ specialize (HC j ltac:(lia) Hjn). lia.
           ++ intros x [<-|[]]. apply in_cell_false. right. apply HX; [lia|lia|left; reflexivity].
        -- intros j x Hj Hjn Hx. apply HX; [lia|lia|right; exact Hx].
Qed.

Lemma check_complete l :
  increasing l -> (forall i, (i + 1 < length l)%nat -> nth i l 0 < b n) -> (forall x, In x l -> b 0%nat <= x) ->
  (forall j, (2 <= j <= n - 1)%nat -> exists x, In x l /\ b (j - 1)%nat <= x < b j) ->
  check_cells bs l = Ok tt ->
  forall j, (1 <= j <= n)%nat -> (points_in_cell b j l <= d + 1)%nat.
Proof.
  intros HS HIN H0 HG E. apply increasing_sorted in HS.
  apply (scan_complete l [] 0%Z 1%nat); cbn [app]; auto; try lia.
  - intros A y z B ->. specialize (HIN (length A)). rewrite nth_middle in HIN. apply HIN.
    rewrite app_length; cbn; lia.
  - intros x [].
  - intros _. cbn. lia.
Qed.

(** the check decides exactly the claim when no inner cell is empty *)
Lemma check_exact l :
  increasing l -> (forall i, (i + 1 < length l)%nat -> nth i l 0 < b n) -> (forall x, In x l -> b 0%nat <= x) ->
  (forall j, (2 <= j <= n - 1)%nat -> exists x, In x l /\ b (j - 1)%nat <= x < b j) ->
  ((forall j, (1 <= j <= n)%nat -> (points_in_cell b j l <= d + 1)%nat) -> check_cells bs l = Ok tt) /\
  ((exists j, (1 <= j <= n)%nat /\ (d + 1 < points_in_cell b j l)%nat) -> check_cells bs l = Throw).
Proof.
  intros HS HIN H0 HG. destruct (check_sound l HS HIN H0) as [E|[E (j & Hj & HT)]].
  - split; [auto|]. intros (j & Hj & HT).
    pose proof (check_complete l HS HIN H0 HG E j Hj). lia.
  - split; [|auto]. intros H. specialize (H j Hj). lia.
Qed.
End Scan.
