(** * NetMle: fitted CPDs maximise the likelihood of the data. *)
From Coq Require Import List Bool Arith ZArith Lia String QArith Qcanon Permutation.
From Verif Require Import Base QcX Digraph SmModel SmProofs SmHist SmThms NetModel NetProofs NetFit NetThms.
Import ListNotations.
Local Open Scope Qc_scope.
Local Open Scope list_scope.

Ltac ql := unfold Qcminus in *; qlra.

(** ** Arithmetic and geometric mean *)
Lemma Qc_lt_le a b : a < b -> a <= b.
Proof. apply Qclt_le_weak. Qed.

Lemma Qc_mul_le a b c : 0 <= c -> a <= b -> a * c <= b * c.
Proof. intros Hc H. assert (0 <= (b - a) * c) by (apply Qc_mul_nonneg; ql). replace (b * c) with (a * c + (b - a) * c) by ring. ql. Qed.

Lemma prod_small l : (forall x, In x l -> 0 <= x /\ x <= 1) -> Qprod (fun x => x) l <= 1 /\ (Qprod (fun x => x) l = 1 -> forall x, In x l -> x = 1).
Proof.
  induction l as [|y l IH]; intros H; cbn; [split; [apply Qcle_refl'|intros _ x []]|]. fold (Qprod (fun x : Qc => x) l).
  destruct (H y (or_introl eq_refl)) as [H0 H1]. destruct (IH (fun x Hx => H x (or_intror Hx))) as [I1 I2].
  assert (P0 : 0 <= Qprod (fun x => x) l) by (apply Qprod_nonneg; intros x Hx; apply (H x (or_intror Hx))). set (P := Qprod (fun x => x) l) in *.
  assert (Q1 : y * P <= 1 * P) by (apply Qc_mul_le; auto). replace (1 * P) with P in Q1 by ring.
  split; [ql|]. intros E. assert (EP : P = 1) by ql. intros x [<-|Hx]; [rewrite EP in E; ql|auto].
Qed.

Lemma some_above l : (exists x, In x l /\ 1 < x) \/ (forall x, In x l -> x <= 1).
Proof.
  induction l as [|y l IH]; [right; intros x []|]. destruct (Qclt_le_dec 1 y) as [H|H]; [left; exists y; split; [left; auto|auto]|].
  destruct IH as [(x & Hx & H')|H']; [left; exists x; split; [right; auto|auto]|]. right. intros x [<-|Hx]; auto.
Qed.
Lemma some_below l : (exists x, In x l /\ x < 1) \/ (forall x, In x l -> 1 <= x).
Proof.
  induction l as [|y l IH]; [right; intros x []|]. destruct (Qclt_le_dec y 1) as [H|H]; [left; exists y; split; [left; auto|auto]|].
  destruct IH as [(x & Hx & H')|H']; [left; exists x; split; [right; auto|auto]|]. right. intros x [<-|Hx]; auto.
Qed.
Lemma sum_above l : (forall x, In x l -> 1 <= x) -> Qc_of_nat (List.length l) <= Qsum (fun x => x) l.
Proof.
  induction l as [|y l IH]; intros H; [cbn; apply Qcle_refl'|]. rewrite Qsum_cons. change (List.length (y :: l)) with (1 + List.length l)%nat. rewrite Qc_of_nat_add, Qc_of_nat_1.
  specialize (IH (fun x Hx => H x (or_intror Hx))). specialize (H y (or_introl eq_refl)). set (k := Qc_of_nat _) in *. ql.
Qed.

Lemma amgm n : forall l, List.length l = n -> (forall x, In x l -> 0 <= x) -> Qsum (fun x => x) l <= Qc_of_nat n ->
  Qprod (fun x => x) l <= 1 /\ (Qprod (fun x => x) l = 1 -> forall x, In x l -> x = 1).
Proof.
  induction n as [|n IH]; intros l Hl Nn Sm; [destruct l; [|discriminate]; split; [cbn; apply Qcle_refl'|intros _ x []]|].
  destruct (some_above l) as [(b & Hb & B)|Le]; [|apply prod_small; auto].
  apply in_split in Hb. destruct Hb as (l1 & l2 & ->). assert (P1 : Permutation (l1 ++ b :: l2) (b :: (l1 ++ l2))) by (symmetry; apply Permutation_middle).
  rewrite (Permutation_length P1) in Hl. rewrite (Qsum_perm _ _ _ P1), Qsum_cons in Sm. set (m := l1 ++ l2) in *. cbn [List.length] in Hl. injection Hl as Hl.
  assert (Nm : forall x, In x (b :: m) -> 0 <= x) by (intros x Hx; apply Nn; apply (Permutation_in _ (Permutation_sym P1)); auto).
  change (Datatypes.S n) with (1 + n)%nat in Sm. rewrite Qc_of_nat_add, Qc_of_nat_1 in Sm.
  destruct (some_below m) as [(a & Ha & A)|Ge].
  2:{ exfalso. pose proof (sum_above m Ge) as Q. rewrite Hl in Q. set (k := Qc_of_nat n) in *. ql. }
  apply in_split in Ha. destruct Ha as (m1 & m2 & Em). assert (P2 : Permutation m (a :: (m1 ++ m2))) by (rewrite Em; symmetry; apply Permutation_middle).
  set (k := m1 ++ m2) in *. rewrite (Qsum_perm _ _ _ P2), Qsum_cons in Sm. rewrite (Permutation_length P2) in Hl.
  assert (Nk : forall x, In x k -> 0 <= x) by (intros x Hx; apply Nm; right; apply (Permutation_in _ (Permutation_sym P2)); right; auto).
  assert (A0 : 0 <= a) by (apply Nm; right; apply (Permutation_in _ (Permutation_sym P2)); left; auto).
  destruct (IH ((a + b - 1) :: k)) as [I1 _]; [exact Hl| | |].
  - intros x [<-|Hx]; auto. ql.
  - rewrite Qsum_cons. set (q := Qc_of_nat n) in *. set (t := Qsum (fun x => x) k) in *. ql.
  - assert (E : Qprod (fun x => x) (l1 ++ b :: l2) = b * (a * Qprod (fun x => x) k)).
    { rewrite (Qprod_perm _ _ _ P1). cbn. f_equal. fold (Qprod (fun x : Qc => x) m). rewrite (Qprod_perm _ _ _ P2). reflexivity. }
    cbn in I1. fold (Qprod (fun x : Qc => x) k) in I1. rewrite E. assert (K0 : 0 <= Qprod (fun x => x) k) by (apply Qprod_nonneg; auto). set (K := Qprod (fun x => x) k) in *.
    assert (D : 0 <= (1 - a) * (b - 1) * K) by (apply Qc_mul_nonneg; auto; apply Qc_mul_nonneg; ql).
    assert (EQ : (a + b - 1) * K = b * (a * K) + (1 - a) * (b - 1) * K) by ring. rewrite EQ in I1. split; [set (z := (1 - a) * (b - 1) * K) in *; set (w := b * (a * K)) in *; ql|].
    intros E1. exfalso. rewrite E1 in I1. assert (Z : (1 - a) * (b - 1) * K = 0) by (set (z := (1 - a) * (b - 1) * K) in *; ql).
    apply Qc_mult_integral in Z. destruct Z as [Z|Z]; [apply Qc_mult_integral in Z; destruct Z; ql|]. rewrite Z in E1. assert (0 = 1) by (rewrite <- E1; ring). ql.
Qed.

(** ** Counting *)
Lemma NoDup_app_simple {A} (l1 l2 : list A) : NoDup l1 -> NoDup l2 -> (forall x, In x l1 -> ~ In x l2) -> NoDup (l1 ++ l2).
Proof.
  induction 1 as [|x l H ND IH]; cbn; auto. intros N2 D. constructor; [|apply IH; auto]. intros Q. apply in_app_iff in Q. destruct Q; [auto|apply (D x); auto].
Qed.
Lemma Qsum_list_prod {A B} (f : A * B -> Qc) l m : Qsum f (list_prod l m) = Qsum (fun a => Qsum (fun b => f (a, b)) m) l.
Proof. induction l as [|a l IH]; auto. cbn [list_prod]. rewrite Qsum_app, Qsum_map, Qsum_cons, IH. auto. Qed.

Lemma group {R K} (key : R -> K) (dec : forall x y : K, {x = y} + {x <> y}) (keys : list K) (g : K -> Qc) rows : NoDup keys -> (forall r, In r rows -> In (key r) keys) ->
  Qsum (fun r => g (key r)) rows = Qsum (fun k => Qc_of_nat (List.length (filter (fun r => if dec (key r) k then true else false) rows)) * g k) keys.
Proof.
  intros ND. induction rows as [|r rows IH]; intros H.
  - symmetry. apply Qsum_all_zero. intros k _. cbn [filter List.length]. rewrite Qc_of_nat_0. ring.
  - rewrite Qsum_cons, IH by (intros; apply H; right; auto).
    transitivity (Qsum (fun k => (if dec (key r) k then g k else 0) + Qc_of_nat (List.length (filter (fun r => if dec (key r) k then true else false) rows)) * g k) keys).
    + rewrite Qsum_add. f_equal. rewrite (Qsum_single _ keys (key r)); auto; [destruct (dec (key r) (key r)); congruence|apply H; left; auto|]. intros y _ Ny. destruct (dec (key r) y); congruence.
    + apply Qsum_ext. intros k _. cbn [filter]. destruct (dec (key r) k); [|ring]. cbn [List.length].
      set (z := List.length _). change (Qc_of_nat (Datatypes.S z)) with (Qc_of_nat (1 + z)). rewrite Qc_of_nat_add, Qc_of_nat_1. ring.
Qed.

(** ** The value of a column in a row *)
Definition value (r : list (string * option label)) (v : string) : label := match at_col r v with Some x => x | None => LInt 0 end.

Section Node.
  Context (L : string -> list label) (vs : list string) (rows : list (list (string * option label))).
  Context (US : forall r, In r rows -> usable L vs r = true).
  Context (v : string) (ps : list string) (cols : list (list label)).
  Context (Hv : In v vs) (Hp : incl ps vs) (NDL : NoDup (L v)) (NDc : NoDup cols) (Cols : forall u, In u cols <-> Forall2 (fun p x => In x (L p)) ps u).

  Lemma value_ok r w : In r rows -> In w vs -> at_col r w = Some (value r w) /\ In (value r w) (L w).
  Proof.
    intros Hr Hw. specialize (US r Hr). unfold usable in US. rewrite forallb_forall in US. specialize (US w Hw). apply existsb_exists in US. destruct US as (x & Hx & H).
    unfold holds in H. unfold value. destruct (at_col r w) as [z|]; [|discriminate]. destruct (label_eqb_spec z x) as [Ez|]; [subst z; auto|discriminate].
  Qed.
  Lemma holds_value r w s : In r rows -> In w vs -> holds r w s = true <-> value r w = s.
  Proof.
    intros Hr Hw. destruct (value_ok r w Hr Hw) as [E _]. unfold holds. rewrite E. destruct (label_eqb_spec (value r w) s); split; congruence.
  Qed.
  Definition pvals (r : list (string * option label)) : list label := map (value r) ps.
  Lemma pvals_in r : In r rows -> In (pvals r) cols.
  Proof.
    intros Hr. apply Cols. unfold pvals. clear Cols. induction ps as [|p l IH]; cbn; constructor; [apply (value_ok r p Hr); apply Hp; left; auto|]. apply IH. intros x Hx. apply Hp; right; auto.
  Qed.
  Lemma all_hold_pvals r u : In r rows -> In u cols -> all_hold r ps u = true <-> pvals r = u.
  Proof.
    intros Hr Hu. apply Cols in Hu. unfold all_hold, pvals. clear Cols. induction Hu as [|p x l u H F IH]; cbn; [tauto|].
    rewrite andb_true_iff, IH by (intros y Hy; apply Hp; right; auto). rewrite (holds_value r p x Hr) by (apply Hp; left; auto). split; [intros [-> ->]; auto|intros [= -> ->]; auto].
  Qed.
  Definition deck : forall x y : label * list label, {x = y} + {x <> y}.
  Proof. intros. assert (Dl : forall a b : label, {a = b} + {a <> b}) by (intros a b; destruct (label_eqb_spec a b); auto). decide equality. apply list_eq_dec. auto. Defined.
  Definition decu : forall x y : list label, {x = y} + {x <> y}.
  Proof. intros. apply list_eq_dec. intros a b; destruct (label_eqb_spec a b); auto. Defined.

  Lemma occ_count u : In u cols -> occurrences rows ps u = List.length (filter (fun r => if decu (pvals r) u then true else false) rows).
  Proof.
    intros Hu. unfold occurrences. f_equal. apply filter_ext_in. intros r Hr. apply eq_true_iff_eq. rewrite (all_hold_pvals r u Hr Hu). destruct (decu (pvals r) u); intuition congruence.
  Qed.
  Lemma occw_count s u : In u cols -> occurrences_with rows v s ps u = List.length (filter (fun r => if deck (value r v, pvals r) (s, u) then true else false) rows).
  Proof.
    intros Hu. unfold occurrences_with. f_equal. apply filter_ext_in. intros r Hr. apply eq_true_iff_eq. rewrite andb_true_iff, (all_hold_pvals r u Hr Hu), (holds_value r v s Hr Hv).
    destruct (deck (value r v, pvals r) (s, u)) as [E|N]; [injection E as E1 E2; tauto|]. split; [intros [E1 E2]; exfalso; apply N; rewrite E1, E2; auto|discriminate].
  Qed.

  Context (alt p : label -> list label -> Qc).
  Context (Ap : forall s u, In s (L v) -> In u cols -> 0 <= alt s u) (As : forall u, In u cols -> Qsum (fun s => alt s u) (L v) = 1).
  Context (Fp : forall s u, In s (L v) -> In u cols -> p s u = frequency MLE L rows v ps s u).

  Lemma nat_zero n : Qc_of_nat n = 0 -> n = 0%nat.
  Proof. intros H. apply Qc_of_nat_inj. rewrite H, Qc_of_nat_0. auto. Qed.
  Lemma count_pos (f : list (string * option label) -> bool) r : In r rows -> f r = true -> List.length (filter f rows) <> 0%nat.
  Proof. intros Hr Hf E. assert (Q : In r (filter f rows)) by (apply filter_In; auto). destruct (filter f rows); [destruct Q|discriminate]. Qed.

  Lemma p_pos r : In r rows -> 0 < p (value r v) (pvals r).
  Proof.
    intros Hr. pose proof (pvals_in r Hr) as Hu. destruct (value_ok r v Hr Hv) as [_ Hs]. rewrite (Fp _ _ Hs Hu). unfold frequency.
    rewrite (occ_count _ Hu), (occw_count _ _ Hu).
    assert (N1 : List.length (filter (fun r0 => if decu (pvals r0) (pvals r) then true else false) rows) <> 0%nat) by (apply (count_pos _ r Hr); destruct (decu (pvals r) (pvals r)); congruence).
    assert (N2 : List.length (filter (fun r0 => if deck (value r0 v, pvals r0) (value r v, pvals r) then true else false) rows) <> 0%nat) by (apply (count_pos _ r Hr); destruct (deck (value r v, pvals r) (value r v, pvals r)); congruence).
    revert N1 N2. generalize (List.length (filter (fun r0 => if decu (pvals r0) (pvals r) then true else false) rows)) as n1.
    generalize (List.length (filter (fun r0 => if deck (value r0 v, pvals r0) (value r v, pvals r) then true else false) rows)) as n2. intros n2 n1 N1 N2. apply Nat.eqb_neq in N1. rewrite N1. apply Nat.eqb_neq in N1.
    destruct (Qcle_lt_or_eq 0 (Qc_of_nat n2 / Qc_of_nat n1)) as [H|H]; [apply Qc_div_nonneg; apply Qc_of_nat_nonneg|exact H|].
    exfalso. symmetry in H. apply Qc_mult_integral in H. destruct H as [H|H]; [apply N2, nat_zero; auto|].
    assert (Q : Qc_of_nat n1 <> 0) by (intros Q; apply N1, nat_zero; auto). pose proof (Qc_inv_r _ Q) as T. rewrite H in T. assert (0 = 1) by (rewrite <- T; ring). ql.
  Qed.

  Lemma ratio_sum : Qsum (fun r => alt (value r v) (pvals r) / p (value r v) (pvals r)) rows <= Qc_of_nat (List.length rows).
  Proof.
    set (keys := list_prod (L v) cols).
    assert (Ks : forall r, In r rows -> In (value r v, pvals r) keys) by (intros r Hr; apply in_prod; [apply (value_ok r v Hr Hv)|apply pvals_in; auto]).
    assert (NDk : NoDup keys).
    { unfold keys. clear - NDL NDc. induction NDL as [|s l Hs ND IH]; cbn; [constructor|]. apply NoDup_app_simple.
      - apply FinFun.Injective_map_NoDup; auto. intros a b [= ->]. auto.
      - auto.
      - intros [a b] H1 H2. apply in_map_iff in H1. destruct H1 as (y & [= <- <-] & _). apply in_prod_iff in H2. tauto. }
    pose proof (group (fun r => (value r v, pvals r)) deck keys (fun k => alt (fst k) (snd k) / p (fst k) (snd k)) rows NDk Ks) as Gk. cbn [fst snd] in Gk. rewrite Gk. clear Gk.
    apply Qcle_trans with (Qsum (fun k => Qc_of_nat (occurrences rows ps (snd k)) * alt (fst k) (snd k)) keys).
    - apply Qsum_le. intros [s u] Hk. apply in_prod_iff in Hk. destruct Hk as [Hs Hu]. cbn [fst snd]. rewrite <- (occw_count s u Hu). pose proof (Ap s u Hs Hu) as A0.
      destruct (Nat.eq_dec (occurrences_with rows v s ps u) 0) as [Z|NZ].
      + rewrite Z, Qc_of_nat_0, Qcmult_0_l. apply Qc_mul_nonneg; auto. apply Qc_of_nat_nonneg.
      + rewrite (Fp s u Hs Hu). unfold frequency. assert (N1 : occurrences rows ps u <> 0%nat).
        { unfold occurrences, occurrences_with in *. intros Z. apply NZ. clear - Z. induction rows as [|r l IH]; auto. cbn in *. destruct (all_hold r ps u); [discriminate|]. rewrite andb_false_r. auto. }
        pose proof N1 as N1'. apply Nat.eqb_neq in N1. rewrite N1. assert (Q1 : Qc_of_nat (occurrences rows ps u) <> 0) by (intros Q; apply N1', nat_zero; auto).
        assert (Q2 : Qc_of_nat (occurrences_with rows v s ps u) <> 0) by (intros Q; apply NZ, nat_zero; auto).
        match goal with |- ?a <= ?b => replace a with b; [apply Qcle_refl'|field; split; auto] end.
    - unfold keys. rewrite Qsum_list_prod, Qsum_swap.
      rewrite (Qsum_ext _ (fun u => Qc_of_nat (occurrences rows ps u) * 1)) by (intros u Hu; cbn [fst snd]; rewrite Qsum_mul_l, As; auto).
      pose proof (group pvals decu cols (fun _ => 1) rows NDc pvals_in) as Gr. cbn beta in Gr.
      rewrite (Qsum_ext _ (fun u => Qc_of_nat (List.length (filter (fun r => if decu (pvals r) u then true else false) rows)) * 1)) by (intros u Hu; rewrite (occ_count u Hu); auto).
      rewrite <- Gr, Qsum_const. replace (Qc_of_nat (List.length rows) * 1) with (Qc_of_nat (List.length rows)) by ring. apply Qcle_refl'.
  Qed.
End Node.

(** ** The whole network *)

(** The probability of the rows under tables [g] for the nodes: [g v s u] for state [s] and parent states [u]. *)
Definition likelihood (g : string -> label -> list label -> Qc) (parents : list (string * list string)) (rows : list (list (string * option label))) : Qc :=
  Qprod (fun r => Qprod (fun vp => g (fst vp) (value r (fst vp)) (map (value r) (snd vp))) parents) rows.

Lemma Qprod_list_prod {A B} (f : A * B -> Qc) l m : Qprod f (list_prod l m) = Qprod (fun a => Qprod (fun b => f (a, b)) m) l.
Proof. induction l as [|a l IH]; auto. cbn [list_prod]. rewrite Qprod_app, Qprod_map, IH. auto. Qed.

Lemma Qprod_pos {A} (f : A -> Qc) l : (forall x, In x l -> 0 < f x) -> 0 < Qprod f l.
Proof.
  intros H. destruct (Qcle_lt_or_eq 0 (Qprod f l)) as [Q|Q]; [apply Qprod_nonneg; intros; apply Qc_lt_le; auto|auto|].
  exfalso. revert Q. intros Q. symmetry in Q. revert Q. apply Qprod_nonzero. intros x Hx Z. specialize (H x Hx). rewrite Z in H. ql.
Qed.
Lemma sums_equal {A} (f g : A -> Qc) l : (forall x, In x l -> f x <= g x) -> Qsum f l = Qsum g l -> forall x, In x l -> f x = g x.
Proof.
  intros H E x Hx. assert (Z : Qsum (fun x => g x - f x) l = 0).
  { transitivity (Qsum g l + (- (1)) * Qsum f l); [rewrite <- Qsum_mul_l, <- Qsum_add; apply Qsum_ext; intros; ring|rewrite E; ring]. }
  pose proof (Qsum_zero_inv (fun x => g x - f x) l) as Q. specialize (Q (fun y Hy => ltac:(specialize (H y Hy); cbn beta; ql)) Z x Hx). cbn beta in Q. ql.
Qed.

Theorem mle_best b d prior ess S b' fs : reached_net b -> node_states b = Ok S ->
  (forall v, In v (b_nodes b) -> declared S v <> []) -> incl (b_nodes b) (d_cols d) ->
  fit_cpds b d "MaximumLikelihoodEstimator" prior ess = (b', Ok tt) -> cpds b' = Ok fs ->
  forall alt : string -> label -> list label -> Qc,
  (forall v f s u, In (v, f) fs -> In s (f_index f) -> In u (f_columns f) -> 0 <= alt v s u) ->
  (forall v f u, In (v, f) fs -> In u (f_columns f) -> Qsum (fun s => alt v s u) (f_index f) = 1) ->
  let rows := filter (usable (declared S) (b_nodes b)) (d_rows d) in
  let parents := map (fun vf => (fst vf, f_names (snd vf))) fs in
  let fitted := fun v s u => match dget String.eqb fs v with Some f => cell_of f s u | None => 0 end in
  likelihood alt parents rows <= likelihood fitted parents rows /\
  (likelihood alt parents rows = likelihood fitted parents rows ->
   forall v f s u, In (v, f) fs -> In s (f_index f) -> In u (f_columns f) -> occurrences rows (f_names f) u <> 0%nat -> alt v s u = cell_of f s u).
Proof.
  intros Rb NS NE Inc EF EC alt Ap As rows parents fitted.
  destruct (fit_spec b d "MaximumLikelihoodEstimator" prior ess S Rb NS NE Inc (or_introl eq_refl)) as (b2 & fs2 & E1 & E2 & Bn & Be & _ & Pm & Sp).
  rewrite EF in E1. injection E1 as <-. rewrite EC in E2. injection E2 as <-.
  assert (NDf : NoDup (map fst fs)) by (eapply Permutation_NoDup; [symmetry; exact Pm|apply (no_nodes _ (reached_net_ok b Rb))]).
  assert (Hnode : forall v f, In (v, f) fs -> In v (b_nodes b)) by (intros v f H; apply (Permutation_in _ Pm); apply in_map_iff; exists (v, f); auto).
  assert (Fit : forall v f s u, In (v, f) fs -> fitted v s u = cell_of f s u).
  { intros v f s u H. unfold fitted. rewrite (In_dget _ String.eqb_spec fs v f NDf H). auto. }
  assert (US : forall r, In r rows -> usable (declared S) (b_nodes b) r = true) by (intros r H; apply filter_In in H; tauto).
  assert (NDS : forall v, NoDup (declared S v)).
  { intros v. destruct (node_states_declared b S NS) as (st & ES & D & _). destruct (no_states _ (reached_net_ok b Rb) st ES) as [SO _]. rewrite <- D. apply (L_spec st SO v). }
  assert (Hpar : forall v f, In (v, f) fs -> incl (f_names f) (b_nodes b)).
  { intros v f H p Hp. apply (parents_nodes b v (reached_net_ok b Rb)). eapply Permutation_in; [symmetry; apply ssort_Perm|]. apply get_parents_In. apply (Sp v f H). auto. }
  assert (Fq : forall v f s u, In (v, f) fs -> In s (declared S v) -> In u (f_columns f) -> cell_of f s u = frequency MLE (declared S) rows v (f_names f) s u).
  { intros v f s u H Hs Hu. destruct (Sp v f H) as (_ & _ & _ & _ & _ & Q). apply (Q u Hu). auto. }
  assert (Pos : forall r v f, In r rows -> In (v, f) fs -> 0 < cell_of f (value r v) (map (value r) (f_names f))).
  { intros r v f Hr H. destruct (Sp v f H) as (_ & _ & _ & _ & Cl & _).
    apply (p_pos (declared S) (b_nodes b) rows US v (f_names f) (f_columns f) (Hnode v f H) (Hpar v f H) Cl (cell_of f) (fun s u Hs Hu => Fq v f s u H Hs Hu) r Hr). }
  assert (In_ : forall r v f, In r rows -> In (v, f) fs -> In (value r v) (f_index f) /\ In (map (value r) (f_names f)) (f_columns f)).
  { intros r v f Hr H. destruct (Sp v f H) as (Ei & _ & _ & _ & Cl & _). split.
    - rewrite Ei. apply (value_ok (declared S) (b_nodes b) rows US r v Hr (Hnode v f H)).
    - apply (pvals_in (declared S) (b_nodes b) rows US (f_names f) (f_columns f) (Hpar v f H) Cl r Hr). }
  set (x := fun rv : list (string * option label) * (string * frame) =>
    alt (fst (snd rv)) (value (fst rv) (fst (snd rv))) (map (value (fst rv)) (f_names (snd (snd rv)))) / cell_of (snd (snd rv)) (value (fst rv) (fst (snd rv))) (map (value (fst rv)) (f_names (snd (snd rv))))).
  set (l := list_prod rows fs).
  destruct (amgm (List.length l) (map x l)) as [M1 M2].
  - apply map_length.
  - intros y Hy. apply in_map_iff in Hy. destruct Hy as ([r [v f]] & <- & Hy). apply in_prod_iff in Hy. destruct Hy as [Hr H]. unfold x. cbn [fst snd]. destruct (In_ r v f Hr H) as [I1 I2].
    apply Qc_div_nonneg; [apply (Ap v f); auto|apply Qc_lt_le, Pos; auto].
  - rewrite Qsum_map. unfold l. rewrite Qsum_list_prod, Qsum_swap, prod_length, Nat.mul_comm, Qc_of_nat_mul, <- Qsum_const. apply Qsum_le. intros [v f] H. unfold x. cbn [fst snd].
    destruct (Sp v f H) as (Ei & _ & _ & NDc & Cl & _).
    apply (ratio_sum (declared S) (b_nodes b) rows US v (f_names f) (f_columns f) (Hnode v f H) (Hpar v f H) (NDS v) NDc Cl (alt v) (cell_of f)).
    + intros s u Hs Hu. apply (Ap v f); auto. rewrite Ei. auto.
    + intros u Hu. rewrite <- Ei. apply (As v f); auto.
    + intros s u Hs Hu. apply Fq; auto.
  - rewrite Qprod_map in M1, M2.
    assert (Split : forall g, likelihood g parents rows = Qprod (fun rv => g (fst (snd rv)) (value (fst rv) (fst (snd rv))) (map (value (fst rv)) (f_names (snd (snd rv))))) l).
    { intros g. unfold l. rewrite Qprod_list_prod. unfold likelihood, parents. apply Qprod_ext. intros r _. rewrite Qprod_map. reflexivity. }
    assert (EA : likelihood alt parents rows = Qprod x l * likelihood fitted parents rows).
    { rewrite !Split, <- Qprod_mul. apply Qprod_ext. intros [r [v f]] Hy. apply in_prod_iff in Hy. destruct Hy as [Hr H]. unfold x. cbn [fst snd]. rewrite (Fit v f _ _ H).
      pose proof (Pos r v f Hr H) as P0. field. intros Z. rewrite Z in P0. ql. }
    assert (LP : 0 < likelihood fitted parents rows).
    { rewrite Split. apply Qprod_pos. intros [r [v f]] Hy. apply in_prod_iff in Hy. destruct Hy as [Hr H]. cbn [fst snd]. rewrite (Fit v f _ _ H). apply Pos; auto. }
    set (Lf := likelihood fitted parents rows) in *. split.
    + rewrite EA. assert (Q : Qprod x l * Lf <= 1 * Lf) by (apply Qc_mul_le; auto; apply Qc_lt_le; auto). replace (1 * Lf) with Lf in Q by ring. auto.
    + intros E. assert (X1 : Qprod x l = 1).
      { rewrite EA in E. assert (Z : (Qprod x l - 1) * Lf = 0) by (transitivity (Qprod x l * Lf - Lf); [ring|rewrite E; ring]). apply Qc_mult_integral in Z. destruct Z as [Z|Z]; [ql|]. rewrite Z in LP. ql. }
      specialize (M2 X1). intros v f s u H Hs Hu No. destruct (Sp v f H) as (Ei & _ & _ & NDc & Cl & Cu). destruct (Cu u Hu) as [Cu1 Cu2].
      assert (Obs : forall r, In r rows -> alt v (value r v) (map (value r) (f_names f)) = cell_of f (value r v) (map (value r) (f_names f))).
      { intros r Hr. assert (Q : x (r, (v, f)) = 1) by (apply M2, in_map, in_prod; auto). unfold x in Q. cbn [fst snd] in Q. pose proof (Pos r v f Hr H) as P0.
        set (c := cell_of f _ _) in *. assert (Nc : c <> 0) by (intros Z; rewrite Z in P0; ql). transitivity (alt v (value r v) (map (value r) (f_names f)) / c * c); [field; auto|rewrite Q; ring]. }
      symmetry. revert s Hs. apply sums_equal; [|rewrite (As v f u H Hu), Ei; exact Cu2].
      intros s Hs. pose proof Hs as Hs'. rewrite Ei in Hs'. rewrite (Fq v f s u H Hs' Hu). unfold frequency. pose proof No as No'. apply Nat.eqb_neq in No'. rewrite No'.
      destruct (Nat.eq_dec (occurrences_with rows v s (f_names f) u) 0) as [Z|NZ].
      * rewrite Z, Qc_of_nat_0. unfold Qcdiv. rewrite Qcmult_0_l. apply (Ap v f); auto.
      * assert (Ex : exists r, In r rows /\ value r v = s /\ map (value r) (f_names f) = u).
        { rewrite (occw_count (declared S) (b_nodes b) rows US v (f_names f) (f_columns f) (Hnode v f H) (Hpar v f H) Cl s u Hu) in NZ.
          destruct (filter (fun r => if deck (value r v, pvals (f_names f) r) (s, u) then true else false) rows) as [|r k] eqn:Ef; [cbn in NZ; congruence|].
          assert (Q : In r (r :: k)) by (left; auto). rewrite <- Ef in Q. apply filter_In in Q. destruct Q as [Hr Q]. exists r. split; auto.
          destruct (deck (value r v, pvals (f_names f) r) (s, u)) as [E3|]; [|discriminate]. injection E3 as E3 E4. auto. }
        destruct Ex as (r & Hr & <- & <-). rewrite (Obs r Hr). rewrite (Fq v f _ _ H Hs' Hu). unfold frequency. rewrite No'. apply Qcle_refl'.
Qed.
