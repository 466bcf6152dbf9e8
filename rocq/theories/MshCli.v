(** Proofs about the command line (input.cpp) *)
From Coq Require Import String Ascii Decimal DecimalString DecimalZ DecimalPos DecimalN.
From Verif Require Import Lib MshModel MshSpec.
Open Scope string_scope.

Lemma app_str_assoc a b c : (a ++ b) ++ c = a ++ (b ++ c).
Proof. induction a; cbn; congruence. Qed.
Lemma app_str_nil a : a ++ "" = a.
Proof. induction a; cbn; congruence. Qed.
Lemma app_str_inv a b c : a ++ b = a ++ c -> b = c.
Proof. induction a; cbn; [auto|]. intros H; injection H; auto. Qed.

(** a character that does not occur *)
Definition absent (c : ascii) (s : string) : Prop := forall a b, s <> a ++ String c b.
Lemma absent_nil c : absent c "".
Proof. intros [|]; discriminate. Qed.
Lemma absent_cons c x s : absent c (String x s) <-> x <> c /\ absent c s.
Proof.
  split.
  - intros H. split; [intros ->; exact (H "" s eq_refl)|].
    intros a b ->. exact (H (String x a) b eq_refl).
  - intros [N H] [|y a] b E; cbn in E; injection E; intros; [congruence|]. subst. eapply H; eauto.
Qed.
Lemma absent_app c a b : absent c (a ++ b) <-> absent c a /\ absent c b.
Proof.
  induction a as [|x a IH]; cbn.
  - split; [intros; split; [apply absent_nil|auto]|tauto].
  - rewrite !absent_cons, IH. tauto.
Qed.

Lemma slash_some s f : after_last_slash s = Some f -> (exists d, s = d ++ String "/" f) /\ absent "/" f.
Proof.
  revert f; induction s as [|c r IH]; cbn; [discriminate|]. intros f.
  destruct (after_last_slash r) as [g|] eqn:E.
  - intros H; injection H as ->. destruct (IH f eq_refl) as [(d & ->) A]. split; [|exact A].
    exists (String c d). reflexivity.
  - destruct (Ascii.eqb c "/") eqn:C; [|discriminate]. intros H; injection H as <-.
    apply Ascii.eqb_eq in C as ->. split; [exists ""; reflexivity|].
    clear IH. revert E. induction r as [|x r IH]; [intros; apply absent_nil|].
    cbn. destruct (after_last_slash r) as [g|]; [discriminate|].
    destruct (Ascii.eqb x "/") eqn:C; [discriminate|]. intros _. apply absent_cons. split; [|auto].
    intros ->. discriminate.
Qed.
Lemma slash_none s : after_last_slash s = None <-> absent "/" s.
Proof.
  induction s as [|c r IH]; cbn.
  - split; [intros; apply absent_nil|auto].
  - rewrite absent_cons, <- IH. destruct (after_last_slash r) as [g|].
    + split; [discriminate|intros [_ H]; discriminate].
    + destruct (Ascii.eqb c "/") eqn:C.
      * apply Ascii.eqb_eq in C. split; [discriminate|tauto].
      * apply Ascii.eqb_neq in C. tauto.
Qed.
Lemma slash_app d f : absent "/" f -> after_last_slash (d ++ String "/" f) = Some f.
Proof.
  intros H. induction d as [|c d IH]; cbn.
  - apply slash_none in H as ->. reflexivity.
  - rewrite IH. reflexivity.
Qed.

(** the directory and the file name of a path *)
Lemma filename_spec s f :
  filename s = f <-> exists d, s = d ++ f /\ absent "/" f /\ (d = "" \/ exists d', d = d' ++ "/").
Proof.
  unfold filename. split.
  - intros E. destruct (after_last_slash s) as [g|] eqn:A.
    + subst g. destruct (slash_some _ _ A) as [(d & ->) B].
      exists (d ++ "/"). split; [rewrite app_str_assoc; reflexivity|]. split; [exact B|]. right; exists d; reflexivity.
    + subst f. exists "". split; [reflexivity|]. split; [apply slash_none; exact A|]. left; reflexivity.
  - intros (d & -> & B & [->|(d' & ->)]).
    + cbn. apply slash_none in B as B'. rewrite B'. reflexivity.
    + rewrite app_str_assoc. cbn. rewrite slash_app by exact B. reflexivity.
Qed.

Lemma dot_none s : from_last_dot s = None <-> absent "." s.
Proof.
  induction s as [|c r IH]; cbn.
  - split; [intros; apply absent_nil|auto].
  - rewrite absent_cons, <- IH. destruct (from_last_dot r) as [g|].
    + split; [discriminate|intros [_ H]; discriminate].
    + destruct (Ascii.eqb c ".") eqn:C.
      * apply Ascii.eqb_eq in C. split; [discriminate|tauto].
      * apply Ascii.eqb_neq in C. tauto.
Qed.
Lemma dot_app a e : absent "." e -> from_last_dot (a ++ String "." e) = Some (String "." e).
Proof.
  intros H. induction a as [|c a IH]; cbn.
  - apply dot_none in H as ->. reflexivity.
  - rewrite IH. reflexivity.
Qed.
Lemma dot_some s e : from_last_dot s = Some e -> exists a, s = a ++ e.
Proof.
  revert e; induction s as [|c r IH]; cbn; [discriminate|]. intros e.
  destruct (from_last_dot r) as [g|].
  - intros H; injection H as ->. destruct (IH e eq_refl) as (a & ->). exists (String c a). reflexivity.
  - destruct (Ascii.eqb c "."); [|discriminate]. intros H; injection H as <-. exists "". reflexivity.
Qed.

Lemma extension_spec path e :
  absent "." e -> absent "/" e -> e <> "" ->
  extension path = String "." e <-> has_extension (String "." e) path.
Proof.
  intros D SL NE. unfold has_extension.
  assert (SE : absent "/" (String "." e)) by (apply absent_cons; split; [discriminate|exact SL]).
  assert (GEN : forall f, (match f with "." | ".." | "" => "" | String _ r => match from_last_dot r with Some x => x | None => "" end end
               = String "." e) <-> exists stem, f = stem ++ String "." e /\ stem <> "").
  { intros f. split.
    - intros H. destruct f as [|c r]; [discriminate|].
      assert (Q : match from_last_dot r with Some x => x | None => "" end = String "." e).
      { revert H. destruct c as [[] [] [] [] [] [] [] []]; auto. destruct r as [|c' r']; [discriminate|].
        destruct c' as [[] [] [] [] [] [] [] []]; auto. destruct r'; [discriminate|auto]. }
      destruct (from_last_dot r) as [x|] eqn:E; [|discriminate]. subst x.
      destruct (dot_some _ _ E) as (a & ->). exists (String c a). split; [reflexivity|discriminate].
    - intros (stem & -> & NS). destruct stem as [|c a]; [congruence|]. cbn [append].
      assert (Q : match from_last_dot (a ++ String "." e) with Some x => x | None => "" end = String "." e)
        by (rewrite dot_app by exact D; reflexivity).
      revert Q. destruct c as [[] [] [] [] [] [] [] []]; auto.
      destruct a as [|c' a]; cbn [append].
      + destruct e as [|x e]; [congruence|]. auto.
      + destruct c' as [[] [] [] [] [] [] [] []]; auto. destruct a; auto. }
  unfold extension. rewrite GEN. split.
  - intros (stem & E & NS). destruct (proj1 (filename_spec path _) E) as (d & -> & A & Hd).
    apply absent_app in A. exists d, stem. tauto.
  - intros (d & stem & -> & NS & A & Hd). exists stem. split; [|exact NS].
    apply filename_spec. exists d. split; [reflexivity|]. split; [|exact Hd].
    apply absent_app. split; [exact A|exact SE].
Qed.

Lemma absent_dec c s : (if List.in_dec ascii_dec c (list_ascii_of_string s) then true else false) = false -> absent c s.
Proof.
  destruct (List.in_dec _ _ _) as [|N]; [discriminate|]. intros _.
  induction s as [|x s IH]; [apply absent_nil|]. cbn in N. apply absent_cons. tauto.
Qed.

Lemma is_yaml_spec path : is_yaml path = true <-> has_extension ".yaml" path \/ has_extension ".yml" path.
Proof.
  unfold is_yaml. rewrite orb_true_iff, !String.eqb_eq.
  rewrite (extension_spec path "yaml"), (extension_spec path "yml");
    [reflexivity|..]; try (apply absent_dec; reflexivity); discriminate.
Qed.

(** ** strtol *)
Lemma digits_pos d : forall acc, digits (Zpos acc) (NilEmpty.string_of_uint d) = Zpos (Pos.of_uint_acc d acc).
Proof.
  induction d; intros acc; [reflexivity|..]; cbn [NilEmpty.string_of_uint Pos.of_uint_acc];
    rewrite <- IHd;
    match goal with |- digits _ (String ?c ?r) = _ =>
      change (digits (Zpos acc) (String c r)) with
        (match digit c with Some x => digits (10 * Zpos acc + x) r | None => Zpos acc end);
      let v := eval vm_compute in (digit c) in change (digit c) with v end;
    cbn iota; f_equal; lia.
Qed.
Lemma digits_uint d : digits 0 (NilEmpty.string_of_uint d) = Z.of_N (Pos.of_uint d).
Proof.
  induction d; [reflexivity|..]; cbn [NilEmpty.string_of_uint Pos.of_uint];
    match goal with |- digits _ (String ?c ?r) = _ =>
      change (digits 0 (String c r)) with
        (match digit c with Some x => digits (10 * 0 + x) r | None => 0%Z end);
      let v := eval vm_compute in (digit c) in change (digit c) with v end;
    cbn iota; [exact IHd|..];
    match goal with |- digits ?z _ = _ => let v := eval vm_compute in z in change z with v end;
    cbn [Z.of_N]; apply digits_pos.
Qed.
Lemma digits_zero d : d <> Nil -> digits 0 (NilZero.string_of_uint d) = Z.of_N (Pos.of_uint d).
Proof. intros H. rewrite <- digits_uint. destruct d; [congruence|reflexivity..]. Qed.

(** the first character of the representation of a natural number is a digit *)
Lemma first_digit d : exists c r, NilZero.string_of_uint d = String c r /\ is_space c = false /\ c <> "-"%char /\ c <> "+"%char.
Proof.
  destruct d; cbn; eexists _, _; (split; [reflexivity|]); repeat split; try reflexivity; discriminate.
Qed.

Lemma clamp_id z : (- LONG_MAX - 1 <= z <= LONG_MAX)%Z -> clamp z = z.
Proof. unfold clamp. lia. Qed.

Lemma uint_nonnil z : match Z.to_int z with Pos u | Neg u => u <> Nil end.
Proof.
  destruct z; cbn; try discriminate;
    intros E; pose proof (DecimalPos.Unsigned.of_to p) as F; rewrite E in F; discriminate.
Qed.

Lemma strtol_plain s : (exists c r, s = String c r /\ is_space c = false /\ c <> "-"%char /\ c <> "+"%char) ->
  strtol s = clamp (digits 0 s).
Proof.
  intros (c & r & -> & H & N1 & N2). unfold strtol. cbn [skip_spaces]. rewrite H.
  destruct c as [[] [] [] [] [] [] [] []]; try reflexivity; congruence.
Qed.

Lemma strtol_decimal z : (- 2 ^ 63 <= z <= 2 ^ 63 - 1)%Z -> strtol (decimal z) = z.
Proof.
  intros Hz. assert (Hz' : (- LONG_MAX - 1 <= z <= LONG_MAX)%Z) by (unfold LONG_MAX; lia).
  unfold decimal. pose proof (uint_nonnil z) as NN. pose proof (DecimalZ.of_to z) as OT.
  destruct (Z.to_int z) as [u|u] eqn:E.
  - cbn [NilZero.string_of_int]. rewrite strtol_plain by apply first_digit.
    rewrite digits_zero by exact NN. cbn in OT. unfold Z.of_uint in OT. rewrite OT. apply clamp_id; exact Hz'.
  - cbn [NilZero.string_of_int]. unfold strtol.
    change (skip_spaces (String "-" (NilZero.string_of_uint u))) with (String "-" (NilZero.string_of_uint u)).
    cbn iota. rewrite digits_zero by exact NN. cbn in OT. unfold Z.of_uint in OT. rewrite OT. apply clamp_id; exact Hz'.
Qed.

(** ** The arguments *)
Lemma usage_ok p l : usage (p :: l) = Ok (Exits false []).
Proof. reflexivity. Qed.

Lemma parse_returns can_open argv params f it :
  parse_arguments can_open argv params = Ok (Returns f it) <->
  (has_extension ".yaml" f \/ has_extension ".yml" f) /\
  exists prog, (argv = [prog; f] /\ it = 0%Z) \/
               (exists s, argv = [prog; "--iter-restart"; s; f] /\ it = strtol s).
Proof.
  rewrite <- is_yaml_spec. split.
  - destruct argv as [|p [|a1 [|a2 [|a3 [|a4 r]]]]]; cbn; try discriminate.
    + destruct (is_yaml a1) eqn:Y; [|discriminate]. intros H; injection H as -> <-.
      split; [exact Y|]. exists p. left; auto.
    + destruct (a1 =? "--dump-config"); discriminate.
    + destruct (a1 =? "--iter-restart") eqn:A; [|discriminate]. apply String.eqb_eq in A as ->.
      destruct (is_yaml a3) eqn:Y; [|discriminate]. intros H; injection H as -> <-.
      split; [exact Y|]. exists p. right. exists a2. auto.
  - intros (Y & p & [(-> & ->)|(s & -> & ->)]); cbn; rewrite Y; reflexivity.
Qed.

Lemma parse_restart can_open prog f z params :
  (has_extension ".yaml" f \/ has_extension ".yml" f) -> (- 2 ^ 63 <= z <= 2 ^ 63 - 1)%Z ->
  parse_arguments can_open [prog; "--iter-restart"; decimal z; f] params = Ok (Returns f z).
Proof.
  intros Y Hz. apply parse_returns. split; [exact Y|]. exists prog. right. exists (decimal z).
  split; [reflexivity|]. symmetry. apply strtol_decimal; exact Hz.
Qed.

Lemma parse_exits can_open argv params success files :
  parse_arguments can_open argv params = Ok (Exits success files) ->
  (success = true /\ exists prog file, argv = [prog; "--dump-config"; file] /\
     files = if can_open file then [(file, params)] else []) \/
  (success = false /\ files = []).
Proof.
  destruct argv as [|p [|a1 [|a2 [|a3 [|a4 r]]]]]; cbn; try discriminate.
  - intros H; injection H as <- <-; auto.
  - destruct (is_yaml a1); [discriminate|]. intros H; injection H as <- <-; auto.
  - destruct (a1 =? "--dump-config") eqn:A.
    + apply String.eqb_eq in A as ->. intros H; injection H as <- <-. left. split; [reflexivity|].
      exists p, a2; auto.
    + intros H; injection H as <- <-; auto.
  - destruct (a1 =? "--iter-restart"); [destruct (is_yaml a3); [discriminate|]|]; intros H; injection H as <- <-; auto.
  - intros H; injection H as <- <-; auto.
Qed.

Lemma parse_total can_open prog args params :
  exists e, parse_arguments can_open (prog :: args) params = Ok e.
Proof.
  destruct args as [|a1 [|a2 [|a3 [|a4 r]]]]; cbn; eauto.
  - destruct (is_yaml a1); eauto.
  - destruct (a1 =? "--dump-config"); eauto.
  - destruct (a1 =? "--iter-restart"); [destruct (is_yaml a3)|]; eauto.
Qed.

(** the two overloads agree except on restarts *)
Lemma overloads_agree can_open argv params :
  (forall prog s f, argv <> [prog; "--iter-restart"; s; f]) ->
  parse_arguments can_open argv params = parse_arguments_no_restart can_open argv params.
Proof.
  intros H. destruct argv as [|p [|a1 [|a2 [|a3 [|a4 r]]]]]; cbn; try reflexivity.
  destruct (a1 =? "--iter-restart") eqn:A; [|reflexivity].
  apply String.eqb_eq in A as ->. exfalso; eapply H; reflexivity.
Qed.
Lemma no_restart_overload can_open prog s f params :
  parse_arguments_no_restart can_open [prog; "--iter-restart"; s; f] params = Ok (Exits false []).
Proof. reflexivity. Qed.
