(** * DynGenNames: the sorted column names of dynamic data. *)
From Coq Require Import List Bool Arith ZArith NArith Lia String Ascii Permutation Sorted Decimal DecimalString DecimalNat DecimalFacts.
From Verif Require Import Base Names MapperModel MapperThms DynGenModel.
Import ListNotations.
Local Open Scope string_scope.
Local Open Scope list_scope.
Local Open Scope nat_scope.

(** ** Numerals *)
Lemma dec_head n : n <> 0 -> exists c s, dec n = String c s /\ c <> "0"%char /\ is_digit c = true.
Proof.
  intros N. assert (E : Nat.to_uint n = unorm (Nat.to_uint n)) by (rewrite <- DecimalNat.Unsigned.to_of, DecimalNat.Unsigned.of_to; auto).
  assert (Z : nzhead (Nat.to_uint n) <> Nil).
  { intros Q. unfold unorm in E. rewrite Q in E. apply N. rewrite <- (DecimalNat.Unsigned.of_to n), E. reflexivity. }
  pose proof (nzhead_nonzero (Nat.to_uint n)) as H0. unfold unorm in E. unfold dec.
  destruct (nzhead (Nat.to_uint n)) as [|u|u|u|u|u|u|u|u|u|u]; [congruence|exfalso; eapply H0; reflexivity|..]; rewrite E; cbn; eexists; eexists; (split; [reflexivity|]); (split; [discriminate|reflexivity]).
Qed.

Lemma starts_skip c x s : c <> "_"%char -> starts_with (String "_"%char x) (String c s) = false.
Proof. intros N. cbn [starts_with]. destruct (Ascii.eqb_spec "_" c); [congruence|auto]. Qed.

Lemma digit_not_bar c : is_digit c = true -> c <> "_"%char.
Proof. intros H ->. discriminate. Qed.

Lemma contains_digits_skip s t : all_chars is_digit s = true -> contains "_lag0" (s ++ t) = contains "_lag0" t.
Proof.
  induction s as [|c s IH]; intros H; auto. cbn [all_chars] in H. apply andb_true_iff in H. destruct H as [Hc Hs]. change ((String c s ++ t)%string) with (String c (s ++ t)%string). cbn [contains]. rewrite (starts_skip c _ _ (digit_not_bar c Hc)). cbn [orb]. auto.
Qed.

(** ** Names with a lag *)
Lemma contains_none s : all_chars is_digit s = true -> contains "_lag0" s = false.
Proof. intros H. induction s as [|c s IH]; [reflexivity|]. cbn [all_chars] in H. apply andb_true_iff in H. destruct H as [Hc Hs]. cbn [contains]. rewrite (starts_skip c _ _ (digit_not_bar c Hc)). cbn [orb]. auto. Qed.

(** The tail of a lagged name. *)
Lemma tail_zero : contains "_lag0" ("_lag" ++ dec 0) = true.
Proof. reflexivity. Qed.
Lemma tail_lag l : l <> 0 -> starts_with "_lag0" ("_lag" ++ dec l) = false /\ contains "_lag0" ("_lag" ++ dec l) = false.
Proof.
  intros N. destruct (dec_head l N) as (c & s & E & Nc & Hc). assert (Hs : contains "_lag0" (dec l) = false) by (apply contains_none, dec_digits). rewrite E in *.
  assert (S0 : starts_with "_lag0" ("_lag" ++ String c s) = false). { cbn [append starts_with]. destruct (Ascii.eqb_spec "0" c); [congruence|reflexivity]. }
  split; auto. cbn [append]. cbn [contains]. change (String "_" (String "l" (String "a" (String "g" (String c s))))) with ("_lag" ++ String c s)%string. rewrite S0.
  rewrite !starts_skip by discriminate. cbn [orb]. exact Hs.
Qed.

Lemma starts_lag c l : l <> 0 -> starts_with "_lag0" (c ++ "_lag" ++ dec l) = starts_with "_lag0" c.
Proof.
  intros N. destruct c as [|c1 c]; [apply (tail_lag l N)|]. cbn [append starts_with]. destruct (Ascii.eqb "_" c1); cbn [andb]; auto.
  destruct c as [|c2 c]; [reflexivity|]. cbn [append starts_with]. destruct (Ascii.eqb "l" c2); cbn [andb]; auto.
  destruct c as [|c3 c]; [reflexivity|]. cbn [append starts_with]. destruct (Ascii.eqb "a" c3); cbn [andb]; auto.
  destruct c as [|c4 c]; [reflexivity|]. cbn [append starts_with]. destruct (Ascii.eqb "g" c4); cbn [andb]; auto.
  destruct c as [|c5 c]; [reflexivity|]. cbn [append starts_with]. reflexivity.
Qed.

Lemma contains_lag c l : l <> 0 -> contains "_lag0" (lag_name c l) = contains "_lag0" c.
Proof.
  intros N. unfold lag_name. induction c as [|x c IH].
  - cbn [append]. destruct (tail_lag l N) as [_ E]. exact E.
  - cbn [append contains]. change (String x (c ++ String "_" (String "l" (String "a" (String "g" (dec l)))))) with (String x c ++ "_lag" ++ dec l)%string. rewrite (starts_lag (String x c) l N). f_equal. exact IH.
Qed.

Lemma current_lag0 c : current (lag_name c 0) = true.
Proof. apply contains_spec. exists c, "". reflexivity. Qed.
Lemma current_later c l : l <> 0 -> ~ substring_of "_lag0" c -> current (lag_name c l) = false.
Proof. intros N H. unfold current. rewrite contains_lag by auto. destruct (contains "_lag0" c) eqn:E; auto. exfalso. apply H, contains_spec. auto. Qed.
Lemma digits_free v : ~ substring_of "_lag0" (dec v).
Proof. intros H. apply contains_spec in H. rewrite contains_none in H; [discriminate|apply dec_digits]. Qed.

(** ** One lag: both slices are sorted alike *)
Lemma compare_cons c s s' : String.compare (String c s) (String c s') = String.compare s s'.
Proof. cbn. rewrite (proj2 (ascii_compare_eq c c) eq_refl). auto. Qed.
Lemma compare_diff c c' s s' : c <> c' -> String.compare (String c s) (String c' s') = Ascii.compare c c'.
Proof. intros N. cbn. destruct (Ascii.compare c c') eqn:E; auto. apply ascii_compare_eq in E. congruence. Qed.

Lemma compare_tail b : contains "_lag0" b = false -> String.compare "_lag0" (b ++ "_lag0") = String.compare "_lag1" (b ++ "_lag1").
Proof.
  intros H. destruct b as [|c1 b]; [reflexivity|]. change (String c1 b ++ "_lag0")%string with (String c1 (b ++ "_lag0")). change (String c1 b ++ "_lag1")%string with (String c1 (b ++ "_lag1")).
  destruct (Ascii.eqb_spec "_" c1) as [<-|N]; [|rewrite !compare_diff by auto; auto]. rewrite !compare_cons.
  destruct b as [|c2 b]; [reflexivity|]. cbn [append]. destruct (Ascii.eqb_spec "l" c2) as [<-|N]; [|rewrite !compare_diff by auto; auto]. rewrite !compare_cons.
  destruct b as [|c3 b]; [reflexivity|]. cbn [append]. destruct (Ascii.eqb_spec "a" c3) as [<-|N]; [|rewrite !compare_diff by auto; auto]. rewrite !compare_cons.
  destruct b as [|c4 b]; [reflexivity|]. cbn [append]. destruct (Ascii.eqb_spec "g" c4) as [<-|N]; [|rewrite !compare_diff by auto; auto]. rewrite !compare_cons.
  destruct b as [|c5 b]; [reflexivity|]. cbn [append]. destruct (Ascii.eqb_spec "0" c5) as [<-|N]; [cbn in H; discriminate|]. rewrite (compare_diff "0" c5) by auto.
  destruct (Ascii.eqb_spec "1" c5) as [<-|N1].
  - rewrite compare_cons. destruct b; reflexivity.
  - rewrite (compare_diff "1" c5) by auto. clear - N N1. destruct c5 as [[] [] [] [] [] [] [] []]; try reflexivity; congruence.
Qed.

Lemma compare_lags a : forall b, contains "_lag0" a = false -> contains "_lag0" b = false -> String.compare (lag_name a 0) (lag_name b 0) = String.compare (lag_name a 1) (lag_name b 1).
Proof.
  unfold lag_name. change ("_lag" ++ dec 0)%string with "_lag0". change ("_lag" ++ dec 1)%string with "_lag1".
  induction a as [|x a IH]; intros b Ha Hb; [apply (compare_tail b Hb)|]. destruct b as [|y b].
  - cbn [append]. rewrite (String.compare_antisym (String x (a ++ "_lag0")) "_lag0"), (String.compare_antisym (String x (a ++ "_lag1")) "_lag1"). f_equal. apply (compare_tail (String x a) Ha).
  - change (String x a ++ "_lag0")%string with (String x (a ++ "_lag0")). change (String x a ++ "_lag1")%string with (String x (a ++ "_lag1")).
    change (String y b ++ "_lag0")%string with (String y (b ++ "_lag0")). change (String y b ++ "_lag1")%string with (String y (b ++ "_lag1")).
    destruct (Ascii.eqb_spec x y) as [->|N]; [|rewrite !compare_diff by auto; auto]. rewrite !compare_cons. cbn [contains] in Ha, Hb. apply orb_false_iff in Ha, Hb. apply IH; tauto.
Qed.

Lemma isort_map {A B} (f : A -> B) (le : B -> B -> bool) (l : list A) : isort le (map f l) = map f (isort (fun a b => le (f a) (f b)) l).
Proof.
  induction l as [|x l IH]; cbn; auto. rewrite IH. generalize (isort (fun a b => le (f a) (f b)) l) as m. induction m as [|y m IHm]; cbn; auto. destruct (le (f x) (f y)); cbn; auto. f_equal. auto.
Qed.

Lemma isort_ext {A} (le le' : A -> A -> bool) l : (forall a b, In a l -> In b l -> le a b = le' a b) -> isort le l = isort le' l.
Proof.
  intros H. induction l as [|x l IH]; cbn; auto. rewrite IH by (intros; apply H; cbn; auto).
  assert (HI : forall y, In y (isort le' l) -> le x y = le' x y) by (intros y Hy; apply H; cbn; auto; right; apply isort_In in Hy; auto).
  revert HI. generalize (isort le' l) as m. induction m as [|y m IHm]; cbn; auto. intros HI. rewrite HI by auto. destruct (le' x y); auto. f_equal. auto.
Qed.

Lemma sorted_slices cs : (forall c, In c cs -> ~ substring_of "_lag0" c) -> exists cs', Permutation cs cs' /\
  ssort (map (fun c => lag_name c 0) cs) = map (fun c => lag_name c 0) cs' /\ ssort (map (fun c => lag_name c 1) cs) = map (fun c => lag_name c 1) cs'.
Proof.
  intros H. exists (isort (fun a b => sleb (lag_name a 0) (lag_name b 0)) cs). split; [apply isort_perm|]. unfold ssort. rewrite !isort_map. split; auto. f_equal. apply isort_ext.
  assert (F : forall c, In c cs -> contains "_lag0" c = false) by (intros c Hc; destruct (contains "_lag0" c) eqn:E; auto; exfalso; apply (H c Hc), contains_spec; auto).
  intros a b Ha Hb. unfold sleb. rewrite (compare_lags a b); auto.
Qed.

(** ** Two lags: the first two lagged columns belong to the first variable *)
Lemma zero_first v l k : v <> 0 -> String.compare (lag_name (dec 0) l) (lag_name (dec v) k) = Lt.
Proof.
  intros N. destruct (dec_head v N) as (c & s & E & Nc & Hc). unfold lag_name. rewrite E. cbn [append dec]. change (dec 0) with "0". cbn [append]. rewrite compare_diff by congruence.
  unfold is_digit in Hc. cbv zeta in Hc. apply andb_true_iff in Hc. destruct Hc as [H1 _]. apply Nat.leb_le in H1. unfold Ascii.compare. apply N.compare_lt_iff. unfold nat_of_ascii in H1.
  assert (N.of_nat 48 <= N_of_ascii c)%N by lia. assert (N_of_ascii c <> N_of_ascii "0"). { intros Q. apply Nc. rewrite <- (ascii_N_embedding c), Q. reflexivity. }
  change (N_of_ascii "0") with 48%N in *. lia.
Qed.

Lemma sleb_zero v l k : v <> 0 -> sleb (lag_name (dec v) k) (lag_name (dec 0) l) = false.
Proof. intros N. unfold sleb. rewrite String.compare_antisym, (zero_first v l k N). reflexivity. Qed.

Lemma second_of_sorted x0 x1 rest y z : StronglySorted (fun a b => sleb a b = true) (x0 :: x1 :: rest) -> In y (x0 :: x1 :: rest) -> In z (x0 :: x1 :: rest) -> y <> z -> sleb x1 y = true \/ sleb x1 z = true.
Proof.
  intros S Hy Hz N. inversion S as [|? ? S1 F0]; subst. inversion S1 as [|? ? S2 F1]; subst. rewrite Forall_forall in F1.
  assert (G : forall q, In q (x1 :: rest) -> sleb x1 q = true) by (intros q [<-|Hq]; [apply sleb_refl|auto]).
  destruct Hy as [<-|Hy]; [|auto]. destruct Hz as [<-|Hz]; [congruence|auto].
Qed.
