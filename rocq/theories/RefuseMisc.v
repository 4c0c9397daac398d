(** * RefuseMisc: the exceptions of colour gradients and of classification reports for unusable arguments. *)
From Coq Require Import List Bool Arith ZArith Lia String Ascii QArith Qcanon Permutation.
From Verif Require Import Base QcX Digraph SmModel SmProofs SmHist SmThms NetModel NetProofs NetFit NetThms EvalModel EvalProofs MetricsModel MetricsThms.
From Verif Require Import Float64 PlotModel GradProofs GradStrings.
Import ListNotations.
Local Open Scope string_scope.
Local Open Scope list_scope.

(** ** color_gradient_string *)

(** "#" and three bytes in hexadecimal digits, and then anything. *)
Definition color_like (s : string) : Prop :=
  exists r g b rest x y z, s = ("#" ++ r ++ g ++ b ++ rest)%string /\ byte_text r x /\ byte_text g y /\ byte_text b z.

Lemma hex_val_digit c z : hex_val c = Some z -> exists k, digit_value c k.
Proof.
  intros E. unfold hex_val in E. set (n := nat_of_ascii c) in *. assert (C : c = ascii_of_nat n) by (unfold n; rewrite ascii_nat_embedding; auto).
  assert (H : (48 <= n <= 57 \/ 97 <= n <= 102 \/ 65 <= n <= 70)%nat).
  { destruct ((48 <=? Z.of_nat n)%Z && (Z.of_nat n <=? 57)%Z) eqn:A; [apply andb_true_iff in A as [A1 A2]; apply Z.leb_le in A1, A2; lia|].
    destruct ((97 <=? Z.of_nat n)%Z && (Z.of_nat n <=? 102)%Z) eqn:B; [apply andb_true_iff in B as [A1 A2]; apply Z.leb_le in A1, A2; lia|].
    destruct ((65 <=? Z.of_nat n)%Z && (Z.of_nat n <=? 70)%Z) eqn:D; [apply andb_true_iff in D as [A1 A2]; apply Z.leb_le in A1, A2; lia|]. discriminate. }
  clearbody n. subst c. destruct H as [H|[H|H]].
  - exists (n - 48)%nat. left. assert (X : In n (seq 48 10)) by (apply in_seq; lia). cbn in X. decompose [or] X; subst; try reflexivity; contradiction.
  - exists (n - 87)%nat. left. assert (X : In n (seq 97 6)) by (apply in_seq; lia). cbn in X. decompose [or] X; subst; try reflexivity; contradiction.
  - exists (n - 55)%nat. right. assert (X : In n (seq 65 6)) by (apply in_seq; lia). cbn in X. decompose [or] X; subst; try reflexivity; contradiction.
Qed.

Lemma group_byte s v r : hex_group s = Some (v, r) -> exists t x, s = (t ++ r)%string /\ byte_text t x.
Proof.
  destruct s as [|a [|b s]]; cbn; try discriminate. destruct (hex_val a) eqn:A; [|discriminate]. destruct (hex_val b) eqn:B; [|discriminate]. intros [= <- <-].
  apply hex_val_digit in A as (x & A). apply hex_val_digit in B as (y & B). exists (String a (String b "")), (16 * Z.of_nat x + Z.of_nat y)%Z. split; [reflexivity|]. exists a, b, x, y. auto.
Qed.

Lemma match_color_spec s : (exists l, match_color s = Ok l) /\ color_like s \/ match_color s = Err AttributeError /\ ~ color_like s.
Proof.
  assert (K : color_like s -> exists l, match_color s = Ok l).
  { intros (r & g & b & rest & x & y & z & -> & Hr & Hg & Hb). cbn [append match_color]. rewrite Ascii.eqb_refl. rewrite (byte_group r _ _ Hr), (byte_group g _ _ Hg), (byte_group b _ _ Hb). eauto. }
  assert (O : (exists l, match_color s = Ok l) -> color_like s).
  { intros (l & E). destruct s as [|h s]; [discriminate|]. cbn in E. destruct (Ascii.eqb_spec h "#") as [->|]; [|discriminate].
    destruct (hex_group s) as [[r s1]|] eqn:G1; [|discriminate]. destruct (hex_group s1) as [[g s2]|] eqn:G2; [|discriminate]. destruct (hex_group s2) as [[b s3]|] eqn:G3; [|discriminate].
    apply group_byte in G1 as (t1 & x & -> & B1). apply group_byte in G2 as (t2 & y & -> & B2). apply group_byte in G3 as (t3 & z & -> & B3). exists t1, t2, t3, s3, x, y, z. auto. }
  assert (X : forall e, match_color s = Err e -> e = AttributeError).
  { intros e E. destruct s as [|h s]; [cbn in E; congruence|]. cbn in E. destruct (Ascii.eqb h "#"); [|congruence].
    destruct (hex_group s) as [[r s1]|]; [|congruence]. destruct (hex_group s1) as [[g s2]|]; [|congruence]. destruct (hex_group s2) as [[b s3]|]; [discriminate|congruence]. }
  destruct (match_color s) as [l|e] eqn:E.
  - left. split; eauto.
  - right. split; [f_equal; auto|]. intros H. apply K in H as (l & [=]).
Qed.

Lemma gradient_accepts a b n : let r := color_gradient_string a b n in
  (~ (color_like a /\ color_like b) -> r = Err AttributeError) /\
  (color_like a -> color_like b -> (n = 0%Z -> r = Err ZeroDivisionError) /\ (n <> 0%Z -> exists s, r = Ok s)).
Proof.
  intros r. unfold r, color_gradient_string. destruct (match_color_spec a) as [((la & ->) & A)|(-> & A)], (match_color_spec b) as [((lb & ->) & B)|(-> & B)]; cbn [bind];
    (split; [try (intros N; exfalso; apply N; auto; fail); auto|try (intros; contradiction)]).
  intros _ _. split; [intros ->; reflexivity|]. intros N. destruct (Z.eqb_spec n 0); [contradiction|]. eauto.
Qed.

(** ** classification_report *)
Lemma all_some_none {A} (l : list (option A)) : In None l -> all_some l = None.
Proof. induction l as [|[x|] l IH]; cbn; intros H; [destruct H| |reflexivity]. destruct H as [[=]|H]. rewrite (IH H). reflexivity. Qed.
Lemma all_some_inv {A} (l : list (option A)) : forall m, all_some l = Some m -> l = map Some m.
Proof. induction l as [|[x|] l IH]; cbn; intros m E; [injection E as <-; reflexivity| |discriminate]. destruct (all_some l) as [m'|]; [|discriminate]. injection E as <-. cbn. f_equal. auto. Qed.

Theorem report_refuses b S fs d v f pg : fitted b S fs -> In (v, f) fs ->
  incl (f_names f) (d_cols d) -> In v (d_cols d) ->
  (forall r, In r (d_rows d) -> exists u, parent_values r (f_names f) u /\ In u (f_columns f)) ->
  d_rows d = [] \/ (exists r, In r (d_rows d) /\ at_col r v = None) \/ (exists r x, In r (d_rows d) /\ at_col r v = Some x /\ ~ one_kind (x :: declared S v)) ->
  classification_report pg b d v = Err ValueError.
Proof.
  intros F Hf PC VC Rows H. destruct (report_spec b S fs d v f pg F Hf PC VC Rows) as (preds & labels & EA & NDl & NDn & Il & EP & LP & IP).
  destruct (fitted_inv b S fs F) as (_ & _ & DS & P & _). assert (Hv : In v (b_nodes b)) by (apply (Permutation_in _ P), in_map_iff; exists (v, f); auto). destruct (DS v Hv) as (NEd & NDd & OKd).
  unfold classification_report. rewrite EA. cbn [bind]. destruct H as [->|[(r & Hr & E)|(r & x & Hr & E & K)]].
  - reflexivity.
  - rewrite all_some_none; [reflexivity|]. apply in_map_iff. eauto.
  - destruct (all_some _) as [ts|] eqn:A; [|reflexivity]. apply all_some_inv in A. destruct ts as [|t ts]; [reflexivity|].
    assert (Hx : In x (t :: ts)).
    { assert (I : In (Some x) (map Some (t :: ts))) by (rewrite <- A; apply in_map_iff; eauto). apply in_map_iff in I as (y & [= ->] & I). exact I. }
    assert (Np : exists p, In p preds) by (destruct preds as [|p preds]; [destruct (d_rows d); [destruct Hr|discriminate]|exists p; left; auto]). destruct Np as (p & Hp).
    assert (Dp : In p (declared S v)) by (apply Il, IP, Hp).
    destruct (forallb _ _) eqn:B; [|reflexivity]. exfalso. apply K. rewrite forallb_forall in B.
    assert (B1 := B x ltac:(apply in_or_app; left; exact Hx)). assert (B2 := B p ltac:(apply in_or_app; right; exact Hp)). apply eqb_prop in B1, B2.
    assert (Q : kind x = kind p) by congruence.
    destruct OKd as [OKd|OKd]; destruct (OKd p Dp) as (z & ->); destruct x as [y|y]; cbn in Q; try discriminate; [left|right]; intros w [<-|Hw]; eauto.
Qed.
