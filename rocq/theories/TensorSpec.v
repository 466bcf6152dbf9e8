(** Specification vocabulary for tensors. *)
From Verif Require Export TensorModel.
Open Scope nat_scope.

(** positions within a box of given extents *)
Fixpoint in_box (exts pos : list nat) : Prop :=
  match exts, pos with
  | [], [] => True
  | e :: es, p :: ps => p < e /\ in_box es ps
  | _, _ => False
  end.
(** the tags found at given positions of the index sets *)
Fixpoint tags_at (sets : list index_set) (pos : list nat) : list tag :=
  match sets, pos with
  | s :: sets', p :: pos' => nth p s (Cart 0) :: tags_at sets' pos'
  | _, _ => []
  end.
Definition extents (sets : list index_set) : list nat := map (@length tag) sets.
(** one tag per dimension, taken in the index set of the dimension *)
Fixpoint indexes (sets : list index_set) (dims : list tag) : Prop :=
  match sets, dims with
  | [], [] => True
  | s :: sets', d :: dims' => In d s /\ indexes sets' dims'
  | _, _ => False
  end.
(** index sets have distinct tags, all covariant or all contravariant *)
Definition proper_set (s : index_set) : Prop :=
  NoDup s /\ ((forall t, In t s -> is_cov t = true) \/ (forall t, In t s -> is_contra t = true)).

(** ** Sign of a permutation: parity of the number of inversions *)
Fixpoint inversions (l : list nat) : nat :=
  match l with
  | [] => 0
  | h :: t => length (filter (fun x => x <? h) t) + inversions t
  end.
Definition sign (l : list nat) : Z := if Nat.even (inversions l) then 1%Z else (-1)%Z.
(** position of a tag in a sequence *)
Definition position {A} (dec : forall x y : A, {x = y} + {x <> y}) (o : list A) (x : A) (k : nat) : Prop :=
  nth_error o k = Some x.

(** ** Einstein summation.  [env] gives the value (position) of each index letter. *)
Fixpoint esum (letters : list (nat * nat)) (env : nat -> nat) (f : (nat -> nat) -> R) : R :=
  match letters with
  | [] => f env
  | (c, n) :: t => Rsum n (fun k => esum t (upd env c k) f)
  end.
(** letters with a property, at their first occurrence, with the number of values they take *)
Fixpoint letters (p : nat -> bool) (seen : list nat) (all : list id_map) : list (nat * nat) :=
  match all with
  | [] => []
  | (c, s) :: t =>
      if (p c && negb (existsb (Nat.eqb c) seen))%bool then (c, length s) :: letters p (c :: seen) t
      else letters p seen t
  end.
Definition occurs (all : list id_map) (c : nat) : nat := length (filter (fun m => fst m =? c) all).
(** letters appearing once (indices of the result) and twice (summed) *)
Definition free_letters (all : list id_map) := letters (fun c => occurs all c =? 1) [] all.
Definition summed_letters (all : list id_map) := letters (fun c => occurs all c =? 2) [] all.
(** the letters of the result take the values [pos] *)
Fixpoint assign (ls : list (nat * nat)) (pos : list nat) : nat -> nat :=
  match ls, pos with
  | (c, _) :: ls', p :: pos' => upd (assign ls' pos') c p
  | _, _ => fun _ => 0
  end.

(** A tensor seen through positions: [T pos] is the component read with the tags at [pos] *)
Definition represents (sets : list index_set) (get : list tag -> res R) (T : list nat -> R) : Prop :=
  forall pos, in_box (extents sets) pos -> get (tags_at sets pos) = Ok (T pos).
(** product of the components of the factors, for values of the letters *)
Fixpoint prod_components (fs : list (list nat * (list nat -> R))) (env : nat -> nat) : R :=
  match fs with
  | [] => 1%R
  | (ls, T) :: t => (T (map env ls) * prod_components t env)%R
  end.

(** The index rules of a tensor expression: a letter appears at most twice; when it appears twice,
    once as a covariant and once as a contravariant index of the same dimensions. *)
Definition index_rules (all : list id_map) : Prop :=
  forall c, In c (map fst all) ->
    occurs all c = 1 \/
    (exists a s1 b s2 d, all = a ++ (c, s1) :: b ++ (c, s2) :: d /\
       ~ In c (map fst (a ++ b ++ d)) /\
       (is_cov_set s1 = true \/ is_cov_set s2 = true) /\
       (is_contra_set s1 = true \/ is_contra_set s2 = true) /\
       contra_dims s1 = contra_dims s2).

(** the index sets of the result: those of the letters that appear once, in order of appearance *)
Definition free_sets (all : list id_map) : list index_set :=
  map snd (filter (fun m => occurs all (fst m) =? 1) all).

(** ** Factors of a product.  A factor has its pattern (letters with their index sets), its accessor
    and the components seen through positions. *)
Definition factor := (indexed_tensor * (list nat -> R))%type.
Definition factor_ok (f : factor) : Prop :=
  represents (map snd (it_pattern (fst f))) (it_get (fst f)) (snd f).
Definition view (f : factor) : list nat * (list nat -> R) := (map fst (it_pattern (fst f)), snd f).
Definition pattern_of (fs : list factor) : list id_map := concat (map (fun f => it_pattern (fst f)) fs).
(** value of the Einstein sum for given values of the free letters *)
Definition einstein (fs : list factor) (pos : list nat) : R :=
  esum (summed_letters (pattern_of fs)) (assign (free_letters (pattern_of fs)) pos)
       (prod_components (map view fs)).

(** ** Levi-Civita symbol and determinants *)
(** the Levi-Civita symbol of a sequence of positions *)
Definition eps (l : list nat) : Z := if length (nodup Nat.eq_dec l) =? length l then sign l else 0%Z.
(** sum over all the tuples of [k] positions below [n] *)
Fixpoint tuples_sum (k n : nat) (f : list nat -> R) : R :=
  match k with
  | O => f []
  | S k' => Rsum n (fun p => tuples_sum k' n (fun q => f (p :: q)))
  end.
(** determinant by expansion along the first row *)
Definition skip (j k : nat) : nat := if k <? j then k else S k.
Fixpoint laplace (n : nat) (M : nat -> nat -> R) : R :=
  match n with
  | O => 1%R
  | S n' => Rsum (S n') (fun j => ((-1) ^ j * M 0%nat j * laplace n' (fun i k => M (S i) (skip j k)))%R)
  end.
(** M_{0 q0} M_{1 q1} ... *)
Fixpoint prod_rows (M : nat -> nat -> R) (q : list nat) : R :=
  match q with [] => 1%R | j :: t => (M 0%nat j * prod_rows (fun i => M (S i)) t)%R end.

(** the elements of a sub-tensor: each index set of [small] is included in the one of [big] *)
Fixpoint sub_sets (small big : list index_set) : Prop :=
  match small, big with
  | [], [] => True
  | s :: small', b :: big' => incl s b /\ sub_sets small' big'
  | _, _ => False
  end.
