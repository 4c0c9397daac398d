(** * NetFit: the fitted CPDs (specification by counting rows, and proof). *)
From Coq Require Import List Bool Arith ZArith Lia String QArith Qcanon Permutation Sorted.
From Verif Require Import Base QcX Digraph SmModel SmProofs SmHist NetModel NetProofs.
Import ListNotations.
Local Open Scope Qc_scope.
Local Open Scope list_scope.

(** ** Specification: relative frequencies of labels in the rows of the data *)

Definition holds (r : list (string * option label)) (v : string) (s : label) : bool :=
  match at_col r v with Some x => label_eqb x s | None => false end.

Definition all_hold (r : list (string * option label)) (ps : list string) (u : list label) : bool :=
  forallb (fun px => holds r (fst px) (snd px)) (combine ps u).

(** The rows in which every node of the network has one of its states. *)
Definition usable (L : string -> list label) (vs : list string) (r : list (string * option label)) : bool :=
  forallb (fun v => existsb (holds r v) (L v)) vs.

Definition occurrences (rows : list (list (string * option label))) (ps : list string) (u : list label) : nat :=
  List.length (filter (fun r => all_hold r ps u) rows).

Definition occurrences_with (rows : list (list (string * option label))) (v : string) (s : label) (ps : list string) (u : list label) : nat :=
  List.length (filter (fun r => holds r v s && all_hold r ps u) rows).

(** The (smoothed) relative frequency; without smoothing uniform if the parents' states never occur. *)
Definition frequency (sm : smoothing) (L : string -> list label) (rows : list (list (string * option label)))
    (v : string) (ps : list string) (s : label) (u : list label) : Qc :=
  match sm with
  | MLE => if (occurrences rows ps u =? 0)%nat then 1 / Qc_of_nat (List.length (L v))
           else Qc_of_nat (occurrences_with rows v s ps u) / Qc_of_nat (occurrences rows ps u)
  | Pseudo x => (Qc_of_nat (occurrences_with rows v s ps u) + x) /
                (Qc_of_nat (occurrences rows ps u) + Qc_of_nat (List.length (L v)) * x)
  end.

(** The entry of a CPD data frame in the row of state [s] and the column of the parents' states [u]. *)
Definition cell_of (f : frame) (s : label) (u : list label) : Qc :=
  match index_of label_eqb s (f_index f), index_of (list_eqb label_eqb) u (f_columns f) with
  | Some i, Some j => nth j (nth i (f_rows f) []) 0
  | _, _ => 0
  end.

(** ** Numbers *)
Lemma Qc_of_nat_add a b : Qc_of_nat (a + b) = Qc_of_nat a + Qc_of_nat b.
Proof.
  unfold Qc_of_nat. apply Qc_is_canon. unfold Qcplus. cbn [this Q2Qc]. rewrite !Qred_correct.
  rewrite Nat2Z.inj_add, inject_Z_plus. reflexivity.
Qed.

Lemma Qc_of_nat_mul a b : Qc_of_nat (a * b) = Qc_of_nat a * Qc_of_nat b.
Proof.
  unfold Qc_of_nat. apply Qc_is_canon. unfold Qcmult. cbn [this Q2Qc]. rewrite !Qred_correct.
  rewrite Nat2Z.inj_mul, inject_Z_mult. reflexivity.
Qed.

Lemma Qc_of_nat_0 : Qc_of_nat 0 = 0.
Proof. apply Qc_is_canon. reflexivity. Qed.

Lemma Qc_of_nat_1 : Qc_of_nat 1 = 1.
Proof. apply Qc_is_canon. reflexivity. Qed.

Lemma Qc_of_nat_nonneg n : 0 <= Qc_of_nat n.
Proof.
  unfold Qc_of_nat, Qcle. cbn [this Q2Qc]. change (Qred 0) with 0%Q. rewrite Qred_correct.
  unfold Qle, inject_Z. cbn. lia.
Qed.

Lemma Qc_of_nat_inj a b : Qc_of_nat a = Qc_of_nat b -> a = b.
Proof.
  unfold Qc_of_nat. intros E. apply Qc_eq_iff in E. cbn [this Q2Qc] in E. rewrite !Qred_correct in E.
  unfold Qeq, inject_Z in E. cbn in E. lia.
Qed.

Lemma Qc_of_nat_pos n : (0 < n)%nat -> Qc_of_nat n <> 0.
Proof. intros H E. rewrite <- Qc_of_nat_0 in E. apply Qc_of_nat_inj in E. lia. Qed.

Lemma Qc_of_nat_lt n : (0 < n)%nat -> 0 < Qc_of_nat n.
Proof.
  intros H. apply Qcnot_le_lt. intros L. apply (Qc_of_nat_pos n H). apply Qcle_antisym; auto. apply Qc_of_nat_nonneg.
Qed.

Lemma sum_list_Qsum {A} (f : A -> Qc) l : sum_list (map f l) = Qsum f l.
Proof. induction l; cbn; auto. f_equal. auto. Qed.

Lemma Qsum_const {A} (c : Qc) (l : list A) : Qsum (fun _ => c) l = Qc_of_nat (List.length l) * c.
Proof.
  induction l as [|x l IH].
  - cbn. rewrite Qc_of_nat_0. ring.
  - rewrite Qsum_cons, IH. change (List.length (x :: l)) with (1 + List.length l)%nat.
    rewrite Qc_of_nat_add, Qc_of_nat_1. ring.
Qed.

(** ** Products and chunks *)
Lemma product_In {A} (ls : list (list A)) xs : In xs (product ls) <-> Forall2 (fun l x => In x l) ls xs.
Proof.
  revert xs. induction ls as [|l ls IH]; intros xs; cbn [product].
  - split; [intros [<-|[]]; constructor|inversion 1; left; auto].
  - rewrite in_flat_map. split.
    + intros (x & Hx & H). apply in_map_iff in H as (ys & <- & H). constructor; auto. apply IH; auto.
    + inversion 1; subst. eexists. split; [eassumption|]. apply in_map. apply IH; auto.
Qed.

Lemma product_NoDup {A} (ls : list (list A)) : Forall (@NoDup A) ls -> NoDup (product ls).
Proof.
  induction 1 as [|l ls ND _ IH]; cbn [product].
  - constructor; [intros []|constructor].
  - induction ND as [|x l Nx ND IHl]; cbn [flat_map]; [constructor|].
    assert (D : forall zs, In zs (map (cons x) (product ls)) -> ~ In zs (flat_map (fun x => map (cons x) (product ls)) l)).
    { intros zs H1 H2. apply in_map_iff in H1 as (ys & <- & _). apply in_flat_map in H2 as (y & Hy & H2).
      apply in_map_iff in H2 as (ys' & [= -> ->] & _). auto. }
    assert (P : NoDup (map (cons x) (product ls))).
    { apply FinFun.Injective_map_NoDup; auto. intros u v [= ->]. auto. }
    revert D P. generalize (map (cons x) (product ls)). intros m D P. induction P as [|z m Nz P IHm]; cbn; auto.
    constructor.
    + rewrite in_app_iff. intros [H|H]; [auto|]. apply (D z); [left; auto|auto].
    + apply IHm. intros zs Hz. apply D. right; auto.
Qed.

Lemma product_map {A B} (f : string -> A -> B) (g : string -> list A) ps :
  product (map (fun p => map (f p) (g p)) ps) =
  map (fun u => map (fun pi => f (fst pi) (snd pi)) (combine ps u)) (product (map g ps)).
Proof.
  induction ps as [|p ps IH]; cbn [map product]; auto. rewrite IH.
  generalize (product (map g ps)). intros m. generalize (g p). intros l.
  induction l as [|x l IHl]; cbn [map flat_map]; auto.
  rewrite IHl, map_app, !map_map. f_equal.
Qed.

Lemma chunks_concat {A} (rows : list (list A)) m : (forall r, In r rows -> List.length r = m) ->
  chunks (List.length rows) m (List.concat rows) = rows.
Proof.
  induction rows as [|r rows IH]; intros H; cbn [List.length chunks List.concat]; auto.
  assert (E : List.length r = m) by (apply H; left; auto). subst m.
  rewrite firstn_app, Nat.sub_diag, firstn_all, skipn_app, Nat.sub_diag, skipn_all. cbn. rewrite app_nil_r.
  f_equal. apply IH. intros; apply H; right; auto.
Qed.

Lemma concat_length {A} (rows : list (list A)) m : (forall r, In r rows -> List.length r = m) ->
  List.length (List.concat rows) = (List.length rows * m)%nat.
Proof.
  induction rows as [|r rows IH]; intros H; cbn [List.length List.concat]; auto.
  rewrite app_length, IH by (intros; apply H; right; auto). rewrite (H r) by (left; auto). lia.
Qed.

Lemma map_nth_seq {A} (d : A) l : map (fun i => nth i l d) (seq 0 (List.length l)) = l.
Proof.
  induction l as [|x l IH]; cbn; auto. f_equal. rewrite <- seq_shift, map_map. exact IH.
Qed.

Lemma map_seq_nth {A B} (d : A) (f : nat -> B) (g : A -> B) l :
  (forall i, (i < List.length l)%nat -> f i = g (nth i l d)) -> map f (seq 0 (List.length l)) = map g l.
Proof.
  revert f. induction l as [|x l IH]; intros f H; cbn; auto. f_equal.
  - apply (H 0%nat). cbn. lia.
  - rewrite <- seq_shift, map_map. apply IH. intros i Hi. apply (H (S i)). cbn. lia.
Qed.

Lemma index_of_nth {A} (eqb : A -> A -> bool) (S : forall x y, reflect (x = y) (eqb x y)) l x :
  In x l -> exists i, index_of eqb x l = Some i /\ nth_error l i = Some x.
Proof.
  induction l as [|y l IH]; [intros []|]. cbn. destruct (S x y) as [->|Ne].
  - intros _. exists 0%nat. auto.
  - intros [->|H]; [congruence|]. destruct (IH H) as (i & E & F). rewrite E. exists (Datatypes.S i). auto.
Qed.

Lemma index_of_None {A} (eqb : A -> A -> bool) (S : forall x y, reflect (x = y) (eqb x y)) l x :
  ~ In x l -> index_of eqb x l = None.
Proof.
  induction l as [|y l IH]; cbn; auto. intros N. destruct (S x y) as [->|Ne]; [exfalso; auto|].
  rewrite IH; auto.
Qed.

Lemma list_eqb_spec (a b : list label) : reflect (a = b) (list_eqb label_eqb a b).
Proof.
  revert b. induction a as [|x a IH]; intros [|y b]; cbn [list_eqb]; try (constructor; congruence).
  destruct (label_eqb_spec x y) as [->|Ne]; cbn [andb]; [|constructor; congruence].
  destruct (IH b) as [->|Ne]; constructor; congruence.
Qed.

Lemma nth_error_nth_len {A} (l : list A) i x d : nth_error l i = Some x -> (i < List.length l)%nat /\ nth i l d = x.
Proof. intros E. split; [apply nth_error_Some; congruence|apply nth_error_nth; auto]. Qed.

Lemma map_map_nth {A B} (f : A -> B) l i x d : nth_error l i = Some x -> nth i (map f l) d = f x.
Proof. revert i. induction l as [|y l IH]; intros [|i]; cbn; try discriminate; [intros [= ->]; auto|apply IH]. Qed.

(** Reading a frame by labels. *)
Lemma cell_of_frame idx ps cols (F : label -> list label -> Qc) s u : In s idx -> In u cols ->
  cell_of (mkFrame idx ps cols (map (fun s => map (F s) cols) idx)) s u = F s u.
Proof.
  intros Hs Hu. unfold cell_of. cbn [f_index f_columns f_rows].
  destruct (index_of_nth _ label_eqb_spec _ _ Hs) as (i & -> & Ei).
  destruct (index_of_nth _ list_eqb_spec _ _ Hu) as (j & -> & Ej).
  rewrite (map_map_nth _ _ i s) by auto. apply map_map_nth; auto.
Qed.

Definition smooth_ok (sm : smoothing) : Prop := match sm with MLE => True | Pseudo x => 0 < x end.

Lemma frequency_nonneg sm L rows v ps s u : smooth_ok sm -> 0 <= frequency sm L rows v ps s u.
Proof.
  intros OK. unfold frequency. destruct sm as [|x]; cbn in OK.
  - destruct (_ =? _)%nat.
    + apply Qc_div_nonneg; [|apply Qc_of_nat_nonneg]. rewrite <- Qc_of_nat_1. apply Qc_of_nat_nonneg.
    + apply Qc_div_nonneg; apply Qc_of_nat_nonneg.
  - apply Qclt_le_weak in OK. apply Qc_div_nonneg; apply Qc_add_nonneg; auto using Qc_of_nat_nonneg.
    apply Qc_mul_nonneg; auto using Qc_of_nat_nonneg.
Qed.

(** ** One fitted CPD *)
Section Fit.
  Variable st : list (string * list (label * nat)).
  Hypothesis SO : states_ok st.
  Variable vs : list string.
  Hypothesis KS : incl vs (dkeys st).
  Let L (v : string) : list label := map fst (states_at st v).

  Lemma L_spec v : states_at st v = number (L v) /\ NoDup (L v) /\ one_kind (L v) /\ lsort (L v) = L v.
  Proof.
    unfold L, states_at. destruct (dget String.eqb st v) as [s|] eqn:E.
    - apply (dget_In _ String.eqb_spec) in E. destruct SO as [_ H]. destruct (H _ _ E) as (l & -> & ND & OK & SL).
      rewrite number_keys. auto.
    - cbn. repeat split; auto; try constructor. intros x [].
  Qed.

  Lemma L_card v : card st v = List.length (L v).
  Proof. unfold card, L. rewrite map_length. auto. Qed.

  Lemma code_iff v x i : code (states_at st v) x = Some i <-> exists s, x = Some s /\ nth_error (L v) i = Some s.
  Proof.
    destruct (L_spec v) as (E & ND & _). rewrite E. destruct x as [s|]; cbn [code].
    - rewrite number_iff by auto. split; [eauto|]. intros (s' & [= <-] & H). auto.
    - split; [discriminate|]. intros (s & [=] & _).
  Qed.

  Lemma code_at_coded r v : In v vs -> code_at (coded st vs r) v = code (states_at st v) (at_col r v).
  Proof.
    intros H. unfold code_at, coded. clear KS.
    assert (G : forall l, In v l -> dget String.eqb (map (fun v => (v, code (states_at st v) (at_col r v))) l) v = Some (code (states_at st v) (at_col r v))).
    { induction l as [|x l IH]; [intros []|]. cbn [map dget]. destruct (String.eqb_spec v x) as [<-|Ne]; auto.
      intros [->|Hl]; [congruence|auto]. }
    rewrite G; auto.
  Qed.

  Lemma is_code_holds r v i s : In v vs -> nth_error (L v) i = Some s -> is_code (coded st vs r) v i = holds r v s.
  Proof.
    intros Hv Hs. unfold is_code. rewrite code_at_coded by auto. unfold holds.
    destruct (L_spec v) as (_ & ND & _).
    destruct (at_col r v) as [x|] eqn:Ex.
    - destruct (code (states_at st v) (Some x)) as [j|] eqn:Ec.
      + apply code_iff in Ec as (s' & [= <-] & Hj).
        destruct (label_eqb_spec x s) as [->|Ne].
        * apply Nat.eqb_eq. apply (NoDup_nth_error (L v)); auto. { apply nth_error_Some. congruence. } congruence.
        * apply Nat.eqb_neq. intros ->. congruence.
      + destruct (label_eqb_spec x s) as [->|Ne]; auto. exfalso.
        assert (C : code (states_at st v) (Some s) = Some i) by (apply code_iff; eauto). congruence.
    - cbn [code]. auto.
  Qed.

  Lemma full_usable r : full (coded st vs r) = usable L vs r.
  Proof.
    unfold full, usable, coded.
    induction vs as [|v l IH]; cbn [forallb map]; auto.
    rewrite IH by (intros x Hx; apply KS; right; auto). f_equal. cbn [snd].
    destruct (code (states_at st v) (at_col r v)) as [i|] eqn:E.
    - symmetry. apply existsb_exists. apply code_iff in E as (s & Es & Hs). exists s.
      split; [eapply nth_error_In; eauto|]. unfold holds. rewrite Es. destruct (label_eqb_spec s s); auto.
    - symmetry. apply not_true_iff_false. intros H. apply existsb_exists in H as (s & Hs & Hh).
      unfold holds in Hh. destruct (at_col r v) as [x|]; [|discriminate].
      destruct (label_eqb_spec x s) as [->|]; [|discriminate].
      apply In_nth_error in Hs as (i & Hi). assert (C : code (states_at st v) (Some s) = Some i) by (apply code_iff; eauto).
      congruence.
  Qed.

  Lemma decode_hold r ps us : incl ps vs -> Forall2 (fun p i => (i < List.length (L p))%nat) ps us ->
    forallb (fun pu => is_code (coded st vs r) (fst pu) (snd pu)) (combine ps us) =
    all_hold r ps (map (fun pi => nth (snd pi) (L (fst pi)) (LInt 0)) (combine ps us)).
  Proof.
    unfold all_hold. intros I F. induction F as [|p i ps us Hi F IH]; cbn; auto.
    rewrite IH by (intros x Hx; apply I; right; auto). f_equal.
    apply is_code_holds; [apply I; left; auto|]. apply nth_error_nth'. auto.
  Qed.

  Lemma filter_map_length {A B} (h : A -> B) (f g : B -> bool) (f' g' : A -> bool) l :
    (forall x, f (h x) = f' x) -> (forall x, g (h x) = g' x) ->
    List.length (filter f (filter g (map h l))) = List.length (filter f' (filter g' l)).
  Proof.
    intros Ef Eg. induction l as [|x l IH]; cbn; auto. rewrite Eg. destruct (g' x); cbn; auto.
    rewrite Ef. destruct (f' x); cbn; auto.
  Qed.

  Variable data : list (list (string * option label)).
  Let rows := filter (usable L vs) data.

  Lemma state_count_eq v i s ps us : In v vs -> incl ps vs -> nth_error (L v) i = Some s ->
    Forall2 (fun p i => (i < List.length (L p))%nat) ps us ->
    state_count (filter full (map (coded st vs) data)) v i ps us =
    occurrences_with rows v s ps (map (fun pi => nth (snd pi) (L (fst pi)) (LInt 0)) (combine ps us)).
  Proof.
    intros Hv Hp Hs Hu. unfold state_count, occurrences_with, rows. apply filter_map_length.
    - intros r. rewrite (is_code_holds r v i s) by auto. f_equal. apply decode_hold; auto.
    - intros r. apply full_usable.
  Qed.

  (** Every usable row has exactly one state of [v]. *)
  Lemma states_partition v ps u : In v vs ->
    Qsum (fun s => Qc_of_nat (occurrences_with rows v s ps u)) (L v) = Qc_of_nat (occurrences rows ps u).
  Proof.
    intros Hv. unfold occurrences_with, occurrences.
    assert (U : forall r, In r rows -> exists s, In s (L v) /\ holds r v s = true).
    { intros r H. apply filter_In in H as [_ H]. unfold usable in H. rewrite forallb_forall in H.
      apply existsb_exists, H, Hv. }
    destruct (L_spec v) as (_ & ND & _).
    induction rows as [|r l IH].
    - cbn. apply Qsum_all_zero. intros; apply Qc_of_nat_0.
    - cbn [filter]. specialize (IH (fun r H => U r (or_intror H))).
      destruct (all_hold r ps u) eqn:EA.
      + change (List.length (r :: filter (fun r0 => all_hold r0 ps u) l)) with (1 + List.length (filter (fun r0 => all_hold r0 ps u) l))%nat.
        rewrite Qc_of_nat_add, <- IH, Qc_of_nat_1.
        destruct (U r (or_introl eq_refl)) as (s & Hs & Hh).
        replace 1 with (Qsum (fun x => if holds r v x then 1 else 0) (L v)).
        * rewrite <- Qsum_add. apply Qsum_ext. intros x Hx. destruct (holds r v x); cbn [andb].
          -- rewrite <- Qc_of_nat_1, <- Qc_of_nat_add. auto.
          -- ring.
        * rewrite (Qsum_single _ _ s); auto; [rewrite Hh; auto|].
          intros y Hy Ny. unfold holds in *. destruct (at_col r v) as [z|]; auto.
          destruct (label_eqb_spec z s) as [Ez|]; [|discriminate]. destruct (label_eqb_spec z y); congruence.
      + rewrite <- IH. apply Qsum_ext. intros x Hx. rewrite andb_false_r. auto.
  Qed.

  Lemma none_occur v ps u : In v vs ->
    (forallb (fun c => Qc_eq_bool c 0) (map (fun s => Qc_of_nat (occurrences_with rows v s ps u)) (L v)) = true <->
     occurrences rows ps u = 0%nat).
  Proof.
    intros Hv. pose proof (states_partition v ps u Hv) as P. rewrite forallb_forall. split.
    - intros H. apply Qc_of_nat_inj. rewrite <- P, Qc_of_nat_0. apply Qsum_all_zero. intros s Hs.
      apply Qc_eq_bool_correct. apply H. apply in_map_iff. eauto.
    - intros E c Hc. apply in_map_iff in Hc as (s & <- & Hs). rewrite E, Qc_of_nat_0 in P.
      pose proof (Qsum_zero_inv _ _ (fun x _ => Qc_of_nat_nonneg _) P s Hs) as Z. cbn beta in Z.
      rewrite Z. reflexivity.
  Qed.

  (** One column after smoothing and normalisation. *)
  Lemma column_eq sm v ps u : In v vs -> L v <> [] ->
    normalize (column sm (map (fun s => Qc_of_nat (occurrences_with rows v s ps u)) (L v))) =
    map (fun s => frequency sm L rows v ps s u) (L v).
  Proof.
    intros Hv NE. pose proof (states_partition v ps u Hv) as P. pose proof (none_occur v ps u Hv) as Z.
    unfold frequency. destruct sm as [|x]; cbn [column].
    - destruct (forallb _ _) eqn:E.
      + assert (Z0 : occurrences rows ps u = 0%nat) by (apply Z; auto).
        rewrite Z0. cbn [Nat.eqb]. unfold normalize. rewrite !map_map, sum_list_Qsum.
        rewrite (Qsum_const 1 (L v)). rewrite Qcmult_1_r. auto.
      + assert (Z0 : occurrences rows ps u <> 0%nat) by (intros H; apply Z in H; congruence).
        apply Nat.eqb_neq in Z0. rewrite Z0. unfold normalize. rewrite sum_list_Qsum, P, map_map. auto.
    - unfold normalize. rewrite !map_map, sum_list_Qsum, Qsum_add, P, Qsum_const. auto.
  Qed.

  Lemma product_codes ps : product (map L ps) =
    map (fun us => map (fun pi => nth (snd pi) (L (fst pi)) (LInt 0)) (combine ps us)) (product (map (fun p => seq 0 (card st p)) ps)).
  Proof.
    rewrite <- (product_map (fun p i => nth i (L p) (LInt 0))). f_equal. apply map_ext. intros p.
    rewrite L_card, map_nth_seq. auto.
  Qed.

  (** The table of a node, read by labels. *)
  Lemma estimate_rows sm v ps : In v vs -> incl ps vs -> L v <> [] ->
    t_values (estimate_cpd st (filter full (map (coded st vs) data)) sm ps v) =
    map (fun s => map (frequency sm L rows v ps s) (product (map L ps))) (L v).
  Proof.
    intros Hv Hp NE. unfold estimate_cpd. cbn [t_values]. rewrite L_card.
    apply (map_seq_nth (LInt 0)). intros i Hi.
    rewrite product_codes, !map_map. apply map_ext_in. intros us Hus.
    apply product_In in Hus.
    assert (F : Forall2 (fun p i => (i < List.length (L p))%nat) ps us).
    { clear -Hus. revert us Hus. induction ps as [|p ps IH]; intros us H; inversion H; subst; constructor; auto.
      rewrite <- L_card. apply in_seq in H2. lia. }
    rewrite (map_seq_nth (LInt 0) _ (fun s => Qc_of_nat (occurrences_with rows v s ps (map (fun pi => nth (snd pi) (L (fst pi)) (LInt 0)) (combine ps us))))).
    - rewrite column_eq by auto.
      rewrite (map_map_nth _ (L v) i (nth i (L v) (LInt 0))); auto. apply nth_error_nth'. auto.
    - intros j Hj. f_equal. apply state_count_eq; auto. apply nth_error_nth'. auto.
  Qed.

  Lemma L_sorted v : In v (dkeys st) -> match dget String.eqb st v with Some s => sorted_labels (map fst s) | None => Err KeyError end = Ok (L v).
  Proof.
    intros H. apply (dget_key_Some _ String.eqb_spec) in H as (s & E). rewrite E.
    assert (E' : L v = map fst s) by (unfold L, states_at; rewrite E; auto).
    destruct (L_spec v) as (_ & _ & OK & SL). rewrite E' in *. rewrite sorted_labels_ok by auto. rewrite SL. auto.
  Qed.

  Lemma fitted_frame sm v ps : In v vs -> incl ps vs -> L v <> [] ->
    cpd_frame st v (estimate_cpd st (filter full (map (coded st vs) data)) sm ps v) =
    Ok (mkFrame (L v) ps (product (map L ps)) (map (fun s => map (frequency sm L rows v ps s) (product (map L ps))) (L v))).
  Proof.
    intros Hv Hp NE. unfold cpd_frame. rewrite (estimate_rows sm v ps) by auto.
    cbn [t_parents estimate_cpd].
    rewrite (mapM_ok_intro _ ps L) by (intros p Hpp; apply L_sorted, KS, Hp; auto). cbn [bind].
    rewrite L_sorted by auto. cbn [bind].
    set (rs := map (fun s => map (frequency sm L rows v ps s) (product (map L ps))) (L v)).
    assert (LR : forall r, In r rs -> List.length r = List.length (product (map L ps))).
    { intros r H. apply in_map_iff in H as (s & <- & _). apply map_length. }
    assert (LL : List.length (L v) = List.length rs) by (unfold rs; rewrite map_length; auto).
    rewrite (concat_length rs _ LR), LL, Nat.eqb_refl, (chunks_concat rs _ LR). auto.
  Qed.

  (** The frequencies are distributions. *)

  Lemma frequency_sum sm v ps u : smooth_ok sm -> In v vs -> L v <> [] ->
    Qsum (fun s => frequency sm L rows v ps s u) (L v) = 1.
  Proof.
    intros OK Hv NE.
    assert (LP : (0 < List.length (L v))%nat) by (destruct (L v); [congruence|cbn; lia]).
    pose proof (states_partition v ps u Hv) as P. unfold frequency. destruct sm as [|x]; cbn in OK.
    - destruct (Nat.eqb_spec (occurrences rows ps u) 0) as [Z|Z].
      + rewrite Qsum_const. unfold Qcdiv. rewrite Qcmult_1_l. apply Qc_inv_r, Qc_of_nat_pos; auto.
      + unfold Qcdiv. rewrite Qsum_mul_r, P. apply Qc_inv_r, Qc_of_nat_pos. lia.
    - unfold Qcdiv. rewrite Qsum_mul_r, Qsum_add, P, Qsum_const. apply Qc_inv_r.
      intros E. apply (Qclt_not_le _ _ OK).
      pose proof (Qc_of_nat_nonneg (occurrences rows ps u)) as H1.
      assert (H2 : 0 <= Qc_of_nat (List.length (L v)) * x).
      { apply Qc_mul_nonneg; [apply Qc_of_nat_nonneg|apply Qclt_le_weak; auto]. }
      apply Qc_add_zero in E as [_ E]; auto. apply Qc_mult_integral in E as [E|E].
      + exfalso. revert E. apply Qc_of_nat_pos; auto.
      + subst. apply Qcle_refl.
  Qed.

End Fit.
