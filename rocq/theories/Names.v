(** * Names: decimal numerals and names with a numeric suffix. *)
From Coq Require Import List Bool Arith ZArith Lia String Ascii Decimal DecimalString DecimalNat.
From Verif Require Import Base.
Import ListNotations.
Local Open Scope string_scope.
Local Open Scope list_scope.

(** [str(n)] for a natural number. *)
Definition dec (n : nat) : string := NilZero.string_of_uint (Nat.to_uint n).

Definition is_digit (c : ascii) : bool := let n := nat_of_ascii c in (48 <=? n)%nat && (n <=? 57)%nat.

Fixpoint all_chars (P : ascii -> bool) (s : string) : bool :=
  match s with EmptyString => true | String c r => P c && all_chars P r end.

Lemma nilempty_digits u : all_chars is_digit (NilEmpty.string_of_uint u) = true.
Proof. induction u; cbn; auto. Qed.

Lemma dec_digits n : all_chars is_digit (dec n) = true.
Proof. unfold dec, NilZero.string_of_uint. destruct (Nat.to_uint n); try reflexivity; apply nilempty_digits. Qed.

Lemma dec_nonempty n : dec n <> "".
Proof. unfold dec, NilZero.string_of_uint. destruct (Nat.to_uint n); discriminate. Qed.

Lemma dec_inj a b : dec a = dec b -> a = b.
Proof.
  intros E. unfold dec in E.
  assert (H : forall n, NilZero.uint_of_string (NilZero.string_of_uint (Nat.to_uint n)) = Some (Nat.to_uint n)).
  { intros n. apply NilZero.usu. intros N. assert (Z : n = 0) by (rewrite <- (Unsigned.of_to n), N; reflexivity).
    subst. discriminate. }
  pose proof (H a) as A. rewrite E, H in A. injection A as A. symmetry. apply Unsigned.to_uint_inj. auto.
Qed.

(** ** Splitting off a suffix of digits *)
Fixpoint chars (s : string) : list ascii := match s with EmptyString => [] | String c r => c :: chars r end.

Lemma chars_app a b : chars (a ++ b)%string = chars a ++ chars b.
Proof. induction a; cbn; auto. f_equal; auto. Qed.
Lemma chars_inj a b : chars a = chars b -> a = b.
Proof. revert b. induction a; intros [|c b]; cbn; try congruence. intros [= -> E]. f_equal; auto. Qed.
Lemma all_chars_In P s : all_chars P s = true <-> forall c, In c (chars s) -> P c = true.
Proof.
  induction s as [|c s IH]; cbn; [tauto|]. rewrite andb_true_iff, IH. split; [intros [H1 H2] x [<-|H]; auto|].
  intros H. split; auto.
Qed.

Lemma digits_prefix d d' c c' r r' : (forall x, In x d -> is_digit x = true) -> (forall x, In x d' -> is_digit x = true) ->
  is_digit c = false -> is_digit c' = false -> d ++ c :: r = d' ++ c' :: r' -> d = d' /\ c :: r = c' :: r'.
Proof.
  revert d'. induction d as [|x d IH]; intros [|y d'] H H' Hc Hc' E; cbn in *.
  - auto.
  - injection E as -> _. rewrite (H' y) in Hc; auto. discriminate.
  - injection E as -> _. rewrite (H c') in Hc'; auto. discriminate.
  - injection E as -> E. destruct (IH d') as [-> E']; auto.
Qed.

(** A name is determined by its prefix and number when the separator ends with a non-digit. *)
Lemma suffix_inj sep c a b d d' : is_digit c = false -> all_chars is_digit d = true -> all_chars is_digit d' = true ->
  (a ++ (sep ++ String c "") ++ d)%string = (b ++ (sep ++ String c "") ++ d')%string -> a = b /\ d = d'.
Proof.
  intros Hc D D' E. apply (f_equal chars) in E. rewrite !chars_app in E. cbn [chars] in E.
  apply (f_equal (@List.rev ascii)) in E. rewrite !rev_app_distr in E. cbn [List.rev List.app] in E. rewrite <- !app_assoc in E.
  cbn [List.app] in E. rewrite all_chars_In in D, D'.
  apply digits_prefix in E; auto.
  2:{ intros x Hx. apply D, in_rev; auto. }
  2:{ intros x Hx. apply D', in_rev; auto. }
  destruct E as [E1 E2].
  apply (f_equal (@List.rev ascii)) in E1. rewrite !rev_involutive in E1. apply chars_inj in E1.
  injection E2 as E2. apply app_inv_head in E2. apply (f_equal (@List.rev ascii)) in E2. rewrite !rev_involutive in E2.
  apply chars_inj in E2. auto.
Qed.

(** "{col}_lag{k}" *)
Definition lag_name (c : string) (k : nat) : string := (c ++ "_lag" ++ dec k)%string.
(** "{var}_{i}" *)
Definition part_name (c : string) (k : nat) : string := (c ++ "_" ++ dec k)%string.

Lemma lag_name_inj a i b j : lag_name a i = lag_name b j -> a = b /\ i = j.
Proof.
  intros E. destruct (suffix_inj "_la" "g" a b (dec i) (dec j)) as [Ea Ed]; auto using dec_digits, dec_inj.
Qed.
Lemma part_name_inj a i b j : part_name a i = part_name b j -> a = b /\ i = j.
Proof.
  intros E. destruct (suffix_inj "" "_" a b (dec i) (dec j)) as [Ea Ed]; auto using dec_digits, dec_inj.
Qed.
