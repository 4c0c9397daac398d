(** * TorchTotal: which inputs the torch version accepts. *)
From Coq Require Import List Bool Arith ZArith Lia String QArith Qcanon Permutation.
From Verif Require Import Base Names Digraph SmModel SmProofs SmBuild QcX NotearsModel NotearsProofs NotearsThms
  TorchModel TorchSpec TorchProofs TorchThms TorchGraph TorchResult.
Import ListNotations.
Local Open Scope string_scope.
Local Open Scope list_scope.
Local Open Scope nat_scope.

(** ** What is asked of the input *)

(** Every column, and nothing else, has a type, and every type is known; [None] makes every column continuous. *)
Definition schema_ok (d : nat) (schema : option (list (nat * string))) : Prop :=
  forall s, schema = Some s -> (forall i, In i (map fst s) <-> i < d) /\ forall i a, In (i, a) s -> In a ["bin"; "cat"; "cont"; "ord"; "poiss"].

Definition all_numbers (X : mat) : Prop := forall r x, In r (m_rows X) -> In x r -> exists q, x = Fin q.

(** The type of column [i] is [a]. *)
Definition typed (schema : option (list (nat * string))) (i : nat) (a : string) : Prop := exists s, schema = Some s /\ In (i, a) s.

Definition counts_ok (X : mat) (schema : option (list (nat * string))) : Prop :=
  forall i, typed schema i "poiss" -> forall x, In x (values X i) -> (0 <= x)%Qc.
Definition ordinals_ok (X : mat) (schema : option (list (nat * string))) : Prop :=
  forall i, typed schema i "ord" -> exists x y, In x (values X i) /\ In y (values X i) /\ x <> y.

(** No hidden layer is empty, unless the first one is (there are no hidden layers then). *)
Definition widths_ok (p : tparams) : Prop := forall l, tp_hidden p = Some l -> hd 0 l <> 0 -> ~ In 0 l.

(** ** Proofs *)
Lemma alias_known a : (exists k, alias_kind a = Some k) <-> In a ["bin"; "cat"; "cont"; "ord"; "poiss"].
Proof.
  split.
  - intros (k & E). unfold alias_kind in E. apply (dget_In _ String.eqb_spec) in E. cbn in *. intuition (try congruence); inversion H; auto.
  - cbn. intros H. intuition subst; eexists; reflexivity.
Qed.
Lemma alias_name a k : alias_kind a = Some k -> a = match k with Bin => "bin" | Cat => "cat" | Cont => "cont" | Ord => "ord" | Poiss => "poiss" end.
Proof. intros E. unfold alias_kind in E. apply (dget_In _ String.eqb_spec) in E. repeat (destruct E as [E|E]; [injection E as <- <-; reflexivity|]). destruct E. Qed.

Lemma schema_kinds_ok d schema : (exists ks, schema_kinds d schema = Ok ks) <-> schema_ok d schema.
Proof.
  unfold schema_kinds, schema_ok. destruct schema as [s|].
  2:{ split; [intros _ s' [=]|intros _; eauto]. }
  destruct (forallb (fun i => existsb (Nat.eqb i) (map fst s)) (seq 0 d) && forallb (fun i => i <? d) (map fst s)) eqn:C.
  - assert (K : forall i, In i (map fst s) <-> i < d).
    { apply andb_true_iff in C. destruct C as [C1 C2]. rewrite forallb_forall in C1, C2. intros i. split.
      - intros H. apply C2 in H. apply Nat.ltb_lt; auto.
      - intros H. assert (Hs : In i (seq 0 d)) by (apply in_seq; lia). apply C1 in Hs. apply existsb_exists in Hs. destruct Hs as (j & Hj & Ej).
        apply Nat.eqb_eq in Ej. subst. auto. }
    split.
    + intros (ks & E) s' [= <-]. split; auto. intros i a I. apply mapM_ok in E. apply alias_known. clear C K. induction E as [|[j b] y s ks H M IH]; [destruct I|].
      destruct I as [[= -> ->]|I]; auto. cbn [fst snd] in H. destruct (alias_kind a) as [k|]; [eauto|discriminate].
    + intros H. destruct (H s eq_refl) as [_ A]. clear - A. induction s as [|[i a] s IH]; [exists []; auto|].
      assert (Ka : exists k, alias_kind a = Some k) by (apply alias_known; apply (A i); left; auto). destruct Ka as (k & Ek).
      destruct IH as (ks & E); [intros j b I; apply (A j); right; auto|]. exists ((i, k) :: ks). cbn [mapM fst snd]. rewrite Ek. cbn [bind]. rewrite E. auto.
  - split; [intros (ks & [=])|]. intros H. exfalso. destruct (H s eq_refl) as [K _]. apply andb_false_iff in C.
    destruct C as [C|C]; [assert (T : forallb (fun i => existsb (Nat.eqb i) (map fst s)) (seq 0 d) = true)|assert (T : forallb (fun i => i <? d) (map fst s) = true)]; try congruence.
    + apply forallb_forall. intros i Hi. apply existsb_exists. exists i. split; [apply K; apply in_seq in Hi; lia|apply Nat.eqb_refl].
    + apply forallb_forall. intros i Hi. apply Nat.ltb_lt, K. auto.
Qed.

Lemma schema_kinds_In d schema ks : schema_kinds d schema = Ok ks ->
  forall i k, k <> Cont -> (In (i, k) ks <-> typed schema i (match k with Bin => "bin" | Cat => "cat" | Cont => "cont" | Ord => "ord" | Poiss => "poiss" end)).
Proof.
  unfold schema_kinds, typed. destruct schema as [s|].
  2:{ intros [= <-] i k N. split; [intros I; apply in_map_iff in I; destruct I as (j & [= _ <-] & _); congruence|intros (s & [=] & _)]. }
  destruct (_ && _); [|discriminate]. intros E i k _. apply mapM_ok in E. split.
  - intros I. exists s. split; auto. induction E as [|[j b] y s ks H M IH]; [destruct I|]. cbn [fst snd] in H. destruct (alias_kind b) as [kb|] eqn:Ek; [|discriminate].
    injection H as <-. destruct I as [[= -> ->]|I]; [left; f_equal; apply alias_name; auto|right; auto].
  - intros (s' & [= <-] & I). induction E as [|[j b] y s ks H M IH]; [destruct I|]. cbn [fst snd] in H. destruct I as [[= -> ->]|I]; [left|right; auto].
    destruct k; cbn in H; injection H as <-; auto.
Qed.

Lemma existsb_negative l : existsb (fun x => qlt x 0%Qc) l = false <-> forall x, In x l -> (0 <= x)%Qc.
Proof.
  split.
  - intros E x I. destruct (qlt x 0) eqn:Q; [|apply qlt_false; auto]. assert (existsb (fun x => qlt x 0%Qc) l = true) by (apply existsb_exists; eauto). congruence.
  - intros H. destruct (existsb _ l) eqn:E; auto. apply existsb_exists in E. destruct E as (x & I & Q). apply qlt_iff in Q. exfalso. apply (Qclt_not_le _ _ Q). auto.
Qed.

Lemma fit_one k i X : (exists r, preprocess_fit k i X = Ok r) <-> (k = Poiss -> forall x, In x (column i X) -> (0 <= x)%Qc).
Proof.
  destruct k; cbn [preprocess_fit]; try (split; [intros _ H; discriminate H|intros _; eauto; fail]). rewrite <- existsb_negative.
  destruct (existsb _ _); split; intros H; eauto; [destruct H as (r & [=])|specialize (H eq_refl); discriminate].
Qed.

Lemma fit_cats k i X dt X' : preprocess_fit k i X = Ok (dt, X') -> k = Ord -> dt_cats dt = categories (column i X).
Proof. intros E ->. cbn in E. injection E as <- _. auto. Qed.

Lemma prepare_ok ks : forall X t, rect X -> NoDup (map fst ks) -> (forall i, In i (map fst ks) -> i < width X) ->
  ((exists r, prepare ks X t = Ok r) <-> (forall i, In (i, Poiss) ks -> forall x, In x (column i X) -> (0 <= x)%Qc)) /\
  (forall dts X' t', prepare ks X t = Ok (dts, X', t') -> forall n, Exists (fun dt => dt_kind dt = Ord /\ List.length (dt_cats dt) < n) dts <->
     exists i, In (i, Ord) ks /\ List.length (nodup Qc_eq_dec (column i X)) < n).
Proof.
  induction ks as [|[i k] ks IH]; intros X t R N B; cbn [prepare].
  - split; [split; [intros _ i []|eauto]|]. intros dts X' t' [= <- <- <-] n. split; [intros H; inversion H|intros (i & [] & _)].
  - cbn in N. apply NoDup_cons_iff in N. destruct N as [Ni N].
    assert (Step : forall dt X1, preprocess_fit k i X = Ok (dt, X1) -> rect X1 /\ dt_kind dt = k /\ (forall j, In j (map fst ks) -> j < width X1) /\
       forall j, In j (map fst ks) -> column j X1 = column j X).
    { intros dt X1 E1. destruct (preprocess_fit_spec k i X dt X1 R (B i (or_introl eq_refl)) E1) as (Ei & Ek & R1 & W1 & C1 & G1 & O1).
      split; auto. split; auto. split; [intros j Hj; rewrite W1; pose proof (B j (or_intror Hj)); lia|]. intros j Hj. apply O1; [apply B; right; auto|].
      intros ->. auto. }
    assert (Mem : forall j k', In (j, k') ks -> In j (map fst ks)) by (intros j k' H; apply in_map_iff; exists (j, k'); auto).
    split.
    + split.
      * intros (r & E). apply bind_ok in E. destruct E as ([dt X1] & E1 & E). apply bind_ok in E. destruct E as (r' & E2 & E). cbn [fst snd] in *.
        destruct (Step dt X1 E1) as (R1 & K1 & B1 & O1). intros j [[= -> ->]|I] x Hx.
        -- apply (proj1 (fit_one Poiss j X)); eauto.
        -- eapply (proj1 (proj1 (IH X1 _ R1 N B1))); [eauto|exact I|]. rewrite O1; eauto.
      * intros H. destruct (proj2 (fit_one k i X)) as ([dt X1] & E1); [intros ->; apply H; left; auto|]. rewrite E1. cbn [bind fst snd].
        destruct (Step dt X1 E1) as (R1 & K1 & B1 & O1).
        destruct (proj2 (proj1 (IH X1 (step_tabu dt t) R1 N B1))) as (r' & E2).
        { intros j I x Hx. rewrite O1 in Hx by eauto. apply (H j); auto. right. auto. }
        unfold step_tabu in E2. rewrite E2. cbn [bind]. eauto.
    + intros dts X' t' E n. apply bind_ok in E. destruct E as ([dt X1] & E1 & E). apply bind_ok in E. destruct E as ([[dts1 X2] t2] & E2 & E). cbn [fst snd] in *.
      injection E as <- <- <-. destruct (Step dt X1 E1) as (R1 & K1 & B1 & O1). pose proof (proj2 (IH X1 _ R1 N B1) _ _ _ E2 n) as I2. rewrite Exists_cons, I2, K1. split.
      * intros [(-> & L)|(j & I & L)].
        -- exists i. split; [left; auto|]. rewrite (fit_cats _ _ _ _ _ E1 eq_refl), nodup_isort_length in L. auto.
        -- exists j. split; [right; auto|]. rewrite O1 in L by eauto. auto.
      * intros (j & [[= -> ->]|I] & L).
        -- left. split; auto. rewrite (fit_cats _ _ _ _ _ E1 eq_refl), nodup_isort_length. auto.
        -- right. exists j. split; auto. rewrite O1 by eauto. auto.
Qed.

Lemma distinct_two l : List.length (nodup Qc_eq_dec l) < 2 <-> ~ exists x y, In x l /\ In y l /\ x <> y.
Proof.
  split.
  - intros L (x & y & Hx & Hy & Nxy). apply (nodup_In Qc_eq_dec) in Hx, Hy. destruct (nodup Qc_eq_dec l) as [|a [|b r]]; cbn in *; try lia; intuition congruence.
  - intros H. pose proof (NoDup_nodup Qc_eq_dec l) as N. destruct (nodup Qc_eq_dec l) as [|a [|b r]] eqn:E; cbn; try lia. exfalso. apply H. exists a, b.
    assert (S : forall z, In z (a :: b :: r) -> In z l) by (intros z Hz; rewrite <- E in Hz; apply nodup_In in Hz; auto).
    split; [apply S; left; auto|]. split; [apply S; right; left; auto|]. intros ->. inversion N. apply H2. left. auto.
Qed.

Lemma all_finite_ok X : all_finite X = true <-> all_numbers X.
Proof.
  unfold all_finite, all_numbers. rewrite forallb_forall. split.
  - intros H r x Hr Hx. specialize (H r Hr). rewrite forallb_forall in H. specialize (H x Hx). destruct x; try discriminate. eauto.
  - intros H r Hr. apply forallb_forall. intros x Hx. destruct (H r x Hr Hx) as (q & ->). auto.
Qed.

Lemma layers_ok d p : existsb (fun io => fst io =? 0) (net_layers (net_dims d (hidden_units p))) = false <-> widths_ok p.
Proof.
  assert (L : forall l, l <> [] -> existsb (fun io : nat * nat => fst io =? 0) (net_layers (d :: l ++ [1])) = false <-> ~ In 0 l).
  { intros l N. unfold net_layers. cbn [tl]. rewrite removelast_last. destruct l as [|a l]; [congruence|]. clear N. cbn [app tl]. revert a. induction l as [|b l IH]; intros a.
    - cbn. rewrite orb_false_r, Nat.eqb_neq. intuition congruence.
    - cbn [app combine existsb fst]. rewrite orb_false_iff. cbn [app] in IH. specialize (IH b). cbn [combine] in IH. rewrite IH, Nat.eqb_neq. cbn. intuition congruence. }
  unfold widths_ok, hidden_units, net_dims. destruct (tp_hidden p) as [[|a l]|].
  - cbn. split; auto. intros _ l [= <-] H. cbn in H. congruence.
  - destruct (Nat.eqb_spec (hd 0 (a :: l)) 0) as [E|E].
    + cbn [net_layers tl removelast combine existsb]. split; auto. intros _ l' [= <-] H. congruence.
    + rewrite L by discriminate. split; [intros H l' [= <-] _; auto|]. intros H. apply (H (a :: l)); auto.
  - cbn. split; auto. intros _ l [=].
Qed.

Theorem torch_accepts fuel opt eh act grad rnd X schema p t : 17 <= fuel -> rectangular X -> (forall s, schema = Some s -> NoDup (map fst s)) ->
  (forall n M, eh n M <> PInf) ->
  (exists l, torch_numpy fuel opt eh act grad rnd X schema p t = Ok l) <->
  m_rows X <> [] /\ m_cols X <> 0 /\ all_numbers X /\ schema_ok (m_cols X) schema /\ counts_ok X schema /\ widths_ok p /\
  (tp_max_iter p <> 0 -> ordinals_ok X schema).
Proof.
  intros Hf R Ns Hh. unfold torch_numpy. rewrite <- all_finite_ok, <- schema_kinds_ok.
  assert (Sz : m_size X =? 0 = false <-> m_rows X <> [] /\ m_cols X <> 0).
  { rewrite Nat.eqb_neq. unfold m_size. destruct (m_rows X); cbn; destruct (m_cols X); split; try lia; try (intros []; congruence). intros _. split; [discriminate|lia]. }
  destruct (m_size X =? 0); [split; [intros (l & [=])|intros (A & B & _); assert (true = false) by (apply Sz; auto); discriminate]|].
  destruct (all_finite X); cbn [negb]; [|split; [intros (l & [=])|intros (_ & _ & [=] & _)]].
  destruct (schema_kinds (m_cols X) schema) as [ks|e] eqn:Ek; cbn [bind].
  2:{ split; [intros (l & [=])|intros (_ & _ & _ & (ks & [=]) & _)]. }
  change (mkData (m_cols X) (map (map finite_part) (m_rows X))) with (start_data X).
  destruct (schema_kinds_keys _ _ _ Ns Ek) as [Nk Kk]. pose proof (start_rect X R) as Rs.
  assert (B : forall i, In i (map fst ks) -> i < width (start_data X)) by (intros i Hi; apply Kk; auto).
  destruct (prepare_ok ks (start_data X) t Rs Nk B) as [P1 P2].
  assert (C : counts_ok X schema <-> forall i, In (i, Poiss) ks -> forall x, In x (column i (start_data X)) -> (0 <= x)%Qc).
  { unfold counts_ok. split; intros H i Hi x Hx.
    - rewrite start_column in Hx. apply (H i); auto. apply (schema_kinds_In _ _ _ Ek i Poiss) in Hi; [auto|discriminate].
    - apply (H i); [apply (schema_kinds_In _ _ _ Ek i Poiss); [discriminate|auto]|rewrite start_column; auto]. }
  rewrite C, <- P1. destruct (prepare ks (start_data X) t) as [[[dts X'] t']|e] eqn:Ep; cbn [bind].
  2:{ split; [intros (l & [=])|intros (_ & _ & _ & _ & (r & [=]) & _)]. }
  specialize (P2 _ _ _ eq_refl 2). rewrite <- (layers_ok (width X')). destruct (existsb _ (net_layers _)); [split; [intros (l & [=])|intros (_ & _ & _ & _ & _ & [=] & _)]|].
  assert (O : loss_raises dts = false <-> ordinals_ok X schema).
  { assert (Lr : loss_raises dts = true <-> exists i, In (i, Ord) ks /\ List.length (nodup Qc_eq_dec (column i (start_data X))) < 2).
    { rewrite <- P2. unfold loss_raises. rewrite existsb_exists, Exists_exists. split.
      - intros (dt & I & H). exists dt. split; auto. destruct (dt_kind dt); try discriminate. split; auto. apply Nat.ltb_lt. auto.
      - intros (dt & I & Ko & H). exists dt. split; auto. rewrite Ko. apply Nat.ltb_lt. auto. }
    split.
    - intros E i Ti. destruct (Nat.lt_ge_cases (List.length (nodup Qc_eq_dec (values X i))) 2) as [L|L].
      + assert (loss_raises dts = true); [|congruence]. apply Lr. exists i. split; [apply (schema_kinds_In _ _ _ Ek i Ord); [discriminate|auto]|rewrite start_column; auto].
      + pose proof (NoDup_nodup Qc_eq_dec (values X i)) as N. destruct (nodup Qc_eq_dec (values X i)) as [|a [|b r]] eqn:En; cbn in L; try lia.
        assert (S : forall z, In z (a :: b :: r) -> In z (values X i)) by (intros z Hz; rewrite <- En in Hz; apply nodup_In in Hz; auto).
        exists a, b. split; [apply S; left; auto|]. split; [apply S; right; left; auto|]. intros ->. inversion N. apply H1. left. auto.
    - intros H. apply not_true_is_false. intros E. apply Lr in E. destruct E as (i & I & L). rewrite start_column, distinct_two in L. apply L.
      apply H. apply (schema_kinds_In _ _ _ Ek i Ord) in I; [auto|discriminate]. }
  destruct (loss_raises dts && negb (tp_max_iter p =? 0)) eqn:LR.
  { apply andb_true_iff in LR. destruct LR as [L1 L2]. apply negb_true_iff, Nat.eqb_neq in L2.
    split; [intros (l & [=])|]. intros (_ & _ & _ & _ & _ & _ & H). apply H in L2. apply O in L2. congruence. }
  cbv zeta. rewrite <- (net_dims_1 (width X')) by apply hidden_nonempty.
  match goal with |- context [torch_fit ?a ?b ?c ?d ?e ?f ?g ?h ?i ?j] => destruct (fit_bound a b c d e 0 g h i j) as (v & bb & k' & Ef & _) end.
  { intros. apply Hh. } { lia. } { auto. }
  change 1%Qc with (Qcpower ten 0). rewrite Ef. cbn [bind fst snd].
  set (adj := adjacency act grad (tp_bias p) (net_dims (width X') (hidden_units p)) v X' false).
  destruct (matrix_graph_fun (width X') adj) as (g0 & E0 & _). rewrite E0. cbn [bind].
  destruct (threshold_graph (tp_threshold p) _ _ _ E0) as (g1 & E1 & W1 & N1 & A1). unfold threshold_step in E1. rewrite E1. cbn [bind].
  destruct (effects_result _ g1 adj (adjacency act grad (tp_bias p) (net_dims (width X') (hidden_units p)) v X' true) _ W1 N1 A1) as (g2 & E2 & _). rewrite E2. cbn [bind].
  destruct (matrix_graph_fun (m_cols X) (fold_left (fun M dt => collapse_adj dt M) dts adj)) as (gc & Ec & _). rewrite Ec. cbn [bind].
  split; [|eauto]. intros _. destruct (proj1 Sz eq_refl) as [S1 S2]. repeat split; auto; eauto. intros Hm. apply O. apply andb_false_iff in LR. destruct LR as [LR|LR]; auto.
  apply negb_false_iff, Nat.eqb_eq in LR. congruence.
Qed.
