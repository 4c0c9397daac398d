(** * TorchPandas: names of expanded columns and the data frame version. *)
From Coq Require Import List Bool Arith ZArith Lia String QArith Qcanon Permutation.
From Verif Require Import Base Names Digraph SmModel SmProofs SmBuild QcX NetModel NotearsModel NotearsProofs NotearsThms TorchModel TorchSpec TorchProofs TorchThms TorchGraph TorchResult.
Import ListNotations.
Local Open Scope string_scope.
Local Open Scope list_scope.
Local Open Scope nat_scope.

Local Notation nspec := Nat.eqb_spec.

Lemma make_category c k : make_node_name c k = category_name c k.
Proof. unfold make_node_name, category_name. destruct k; auto. Qed.

(** ** Updating the names *)
Lemma enumerate_keys {A B} (l : list A) (f : nat -> B) : map fst (map (fun ci => (snd ci, f (fst ci))) (enumerate l)) = l.
Proof.
  rewrite map_map. cbn [fst]. unfold enumerate. generalize 0. induction l as [|x l IH]; intros n; cbn; auto. f_equal. apply IH.
Qed.
Lemma enumerate_In {A B} (l : list A) (f : nat -> B) k x : nth_error l k = Some x -> In (x, f k) (map (fun ci => (snd ci, f (fst ci))) (enumerate l)).
Proof.
  intros H. apply in_map_iff. exists (k, x). split; auto. unfold enumerate.
  assert (G : forall s, nth_error l k = Some x -> In (s + k, x) (combine (seq s (List.length l)) l)).
  { clear. revert k. induction l as [|y l IH]; intros [|k] s H; cbn in *; try discriminate.
    - injection H as ->. left. f_equal. lia.
    - right. replace (s + S k) with (S s + k) by lia. auto. }
  apply (G 0 H).
Qed.

Lemma update_get dt ic c k x : good_dt dt -> dt_kind dt = Cat -> dget Nat.eqb ic (dt_idx dt) = Some c -> nth_error (dt_columns dt) k = Some x ->
  exists ic', update_idx_col dt ic = Ok ic' /\ dget Nat.eqb ic' x = Some (category_name c k).
Proof.
  intros G K E H. unfold good_dt, update_idx_col, dt_columns in *. rewrite K in *. destruct G as (ex & Eg & ND). rewrite Eg in *. rewrite E.
  eexists. split; [reflexivity|]. rewrite (dget_dupdate _ nspec).
  set (l := map _ (enumerate _)). assert (Kl : dkeys l = dt_idx dt :: ex) by apply enumerate_keys.
  rewrite (dget_rev_NoDup _ nspec) by (rewrite Kl; auto). rewrite (In_dget _ nspec l x (category_name c k)); auto.
  - rewrite Kl; auto.
  - unfold l. rewrite <- make_category. apply (enumerate_In (dt_idx dt :: ex) (make_node_name c)). auto.
Qed.

Lemma update_other dt ic ic' x : good_dt dt -> update_idx_col dt ic = Ok ic' -> (dt_kind dt = Cat -> ~ In x (dt_columns dt)) -> dget Nat.eqb ic' x = dget Nat.eqb ic x.
Proof.
  intros G E N. unfold good_dt, update_idx_col, dt_columns in *. destruct (dt_kind dt); try (injection E as <-; auto).
  destruct G as (ex & Eg & ND). rewrite Eg in *. specialize (N eq_refl). destruct (dget Nat.eqb ic (dt_idx dt)) as [c0|]; [|discriminate].
  match goal with E : Ok ?a = Ok ?b |- _ => assert (Q : a = b) by congruence; rewrite <- Q; clear Q E end.
  rewrite (dget_dupdate _ nspec). set (l := map _ (enumerate _)). assert (Kl : dkeys l = dt_idx dt :: ex) by apply enumerate_keys.
  rewrite (dget_rev_NoDup _ nspec) by (rewrite Kl; auto).
  replace (dget Nat.eqb l x) with (@None label) by (symmetry; apply (dget_None _ nspec); rewrite Kl; auto).
  assert (Nx : x <> dt_idx dt) by (intros ->; apply N; left; auto). clear - Nx. unfold ddel.
  induction ic as [|[a b] ic IH]; cbn; auto. destruct (Nat.eqb_spec (dt_idx dt) a) as [<-|Na]; cbn.
  - rewrite IH. destruct (Nat.eqb_spec x (dt_idx dt)); congruence.
  - rewrite IH. auto.
Qed.

Lemma update_NoDup dt ic ic' : NoDup (dkeys ic) -> update_idx_col dt ic = Ok ic' -> NoDup (dkeys ic').
Proof.
  intros N E. unfold update_idx_col in E. destruct (dt_kind dt); try (injection E as <-; auto; fail). destruct (dt_group dt); [injection E as <-; auto|].
  destruct (dget _ _ _); [|discriminate].
  match goal with E : Ok ?a = Ok ?b |- _ => assert (Q : a = b) by congruence; rewrite <- Q; clear Q E end. apply (dupdate_NoDup _ nspec). apply ddel_NoDup. auto.
Qed.

Lemma update_ok dt ic : good_dt dt -> dget Nat.eqb ic (dt_idx dt) <> None -> exists ic', update_idx_col dt ic = Ok ic'.
Proof.
  intros G N. unfold update_idx_col, good_dt in *. destruct (dt_kind dt); eauto. destruct G as (ex & -> & _). destruct (dget _ _ _); [eauto|congruence].
Qed.

(** Different variables have different columns. *)
Definition disjoint_columns (ds : list dtype) : Prop :=
  forall d1 d2 x, In d1 ds -> In d2 ds -> In x (dt_columns d1) -> In x (dt_columns d2) -> dt_idx d1 = dt_idx d2.

Lemma good_idx dt : good_dt dt -> In (dt_idx dt) (dt_columns dt).
Proof. unfold good_dt, dt_columns. destruct (dt_kind dt); intros G; try (left; auto; fail). destruct G as (ex & -> & _). left. auto. Qed.

Lemma rename ds : forall ic, NoDup (dkeys ic) -> NoDup (map dt_idx ds) -> Forall good_dt ds -> disjoint_columns ds ->
  (forall dt, In dt ds -> dget Nat.eqb ic (dt_idx dt) <> None) ->
  exists icx, foldM (fun m dt => update_idx_col dt m) ds ic = Ok icx /\ NoDup (dkeys icx) /\
    (forall dt c k x, In dt ds -> dget Nat.eqb ic (dt_idx dt) = Some c -> dt_kind dt = Cat -> nth_error (dt_columns dt) k = Some x ->
       dget Nat.eqb icx x = Some (category_name c k)) /\
    (forall x, (forall dt, In dt ds -> dt_kind dt = Cat -> ~ In x (dt_columns dt)) -> dget Nat.eqb icx x = dget Nat.eqb ic x).
Proof.
  induction ds as [|dt ds IH]; intros ic Nk N G D H.
  - exists ic. cbn. split; [auto|]. split; [auto|]. split; [tauto|auto].
  - apply NoDup_cons_iff in N. fold (map dt_idx ds) in N. destruct N as [Nd N]. apply Forall_cons_iff in G. destruct G as [Gd G].
    destruct (update_ok dt ic Gd (H dt (or_introl eq_refl))) as (ic1 & E1). cbn [foldM]. rewrite E1. cbn [bind].
    assert (Ap : forall d', In d' ds -> forall x, In x (dt_columns dt) -> ~ In x (dt_columns d')).
    { intros d' Hd' x Hx Hx'. apply Nd. rewrite (D dt d' x); auto; [apply in_map; auto|left; auto|right; auto]. }
    assert (Same : forall d', In d' ds -> dget Nat.eqb ic1 (dt_idx d') = dget Nat.eqb ic (dt_idx d')).
    { intros d' Hd'. apply (update_other dt); auto. intros _ I. apply (Ap d' Hd' _ I). apply good_idx. eapply Forall_forall in G; eauto. }
    destruct (IH ic1) as (icx & E & Nx & A & B).
    + eapply update_NoDup; eauto.
    + auto.
    + auto.
    + intros d1 d2 x H1 H2. apply D; right; auto.
    + intros d' Hd'. rewrite Same by auto. apply H. right. auto.
    + exists icx. split; [exact E|]. split; [auto|]. split.
      * intros d' c k x [<-|Hd'] Ec Kd Hx.
        -- destruct (update_get dt ic c k x Gd Kd Ec Hx) as (ic1' & E1' & Q). rewrite E1 in E1'. injection E1' as <-.
           rewrite B; auto. intros d' Hd' _. apply Ap; auto. apply nth_error_In in Hx. auto.
        -- eapply A; eauto. rewrite Same; auto.
      * intros x Nx'. rewrite B; [|intros d' Hd'; apply Nx'; right; auto]. eapply update_other; eauto. apply Nx'. left. auto.
Qed.

(** ** The names of all columns *)
Definition swapped (cols : list label) : list (nat * label) := map (fun ci => (snd ci, fst ci)) (col_idx cols).
Lemma swapped_combine cols : NoDup cols -> swapped cols = combine (seq 0 (List.length cols)) cols.
Proof.
  intros N. unfold swapped. rewrite col_idx_combine by auto. generalize 0. clear N. induction cols as [|c cols IH]; intros n; cbn; auto. f_equal. apply IH.
Qed.
Lemma swapped_get cols a : NoDup cols -> dget Nat.eqb (swapped cols) a = nth_error cols a.
Proof.
  intros N. rewrite swapped_combine by auto.
  assert (G : forall s, dget Nat.eqb (combine (seq s (List.length cols)) cols) a = if s <=? a then nth_error cols (a - s) else None).
  { clear N. induction cols as [|c cols IH]; intros s; cbn [List.length seq combine dget].
    - destruct (s <=? a); auto. destruct (a - s); auto.
    - destruct (Nat.eqb_spec a s) as [->|Na].
      + rewrite Nat.leb_refl, Nat.sub_diag. auto.
      + rewrite IH. destruct (Nat.leb_spec s a); destruct (Nat.leb_spec (S s) a); try lia; auto.
        replace (a - s) with (S (a - S s)) by lia. auto. }
  rewrite G. rewrite Nat.sub_0_r. auto.
Qed.
Lemma swapped_keys cols : NoDup cols -> dkeys (swapped cols) = seq 0 (List.length cols).
Proof.
  intros N. rewrite swapped_combine by auto. unfold dkeys. generalize 0. clear N. induction cols as [|c cols IH]; intros n; cbn; auto. f_equal. apply IH.
Qed.

Lemma expanded_dt X ks t dts X' t' a : facts X ks t dts X' t' -> a < m_cols X -> exists dt, In dt dts /\ dt_idx dt = a /\ dt_columns dt = columns_of (expanded X ks) a.
Proof.
  intros F Ha. apply (fa_vars _ _ _ _ _ _ F) in Ha. pose proof (columns_of_key (expanded X ks) a) as P. rewrite <- (fa_layout _ _ _ _ _ _ F) in P.
  rewrite map_map in P. cbn [fst] in P. specialize (P Ha). apply in_map_iff in P. destruct P as (dt & [= E1 E2] & Hd). rewrite (fa_layout _ _ _ _ _ _ F) in E2. eauto.
Qed.
Lemma dt_expanded X ks t dts X' t' dt : facts X ks t dts X' t' -> In dt dts -> dt_idx dt < m_cols X /\ dt_columns dt = columns_of (expanded X ks) (dt_idx dt).
Proof.
  intros F Hd. split; [apply (fa_vars _ _ _ _ _ _ F); apply in_map; auto|]. symmetry. apply columns_of_In.
  - rewrite <- (fa_layout _ _ _ _ _ _ F), map_map. exact (fa_nodup _ _ _ _ _ _ F).
  - rewrite <- (fa_layout _ _ _ _ _ _ F). apply in_map_iff. eauto.
Qed.

Lemma nth_nth_error {A} (l : list A) n d x : nth_error l n = Some x -> nth n l d = x.
Proof. apply nth_error_nth. Qed.

Lemma has_name_fun cols X ks t dts X' t' x u v : facts X ks t dts X' t' -> List.length cols = m_cols X ->
  has_name cols (expanded X ks) x u -> has_name cols (expanded X ks) x v -> u = v.
Proof.
  intros F L (a & k & Ha & Ek & ->) (b & m & Hb & Em & ->). rewrite L in *.
  assert (a = b) by (apply (fa_uniq _ _ _ _ _ _ F a b x); auto; eapply nth_error_In; eauto). subst b.
  assert (k = m); [|congruence]. pose proof (fa_cols _ _ _ _ _ _ F a) as N. eapply (proj1 (NoDup_nth_error _) N); [|congruence].
  apply nth_error_Some. congruence.
Qed.

Lemma all_names cols X ks t dts X' t' ds : facts X ks t dts X' t' -> NoDup cols -> List.length cols = m_cols X -> Permutation ds dts ->
  exists icx, foldM (fun m dt => update_idx_col dt m) ds (swapped cols) = Ok icx /\ Permutation (dkeys icx) (seq 0 (width X')) /\
    (forall x, x < width X' -> exists u, dget Nat.eqb icx x = Some u /\ has_name cols (expanded X ks) x u).
Proof.
  intros F Nc L P.
  assert (Hin : forall dt, In dt ds -> In dt dts) by (intros dt H; eapply Permutation_in; eauto).
  assert (Dc : disjoint_columns ds).
  { intros d1 d2 x H1 H2 X1 X2. destruct (dt_expanded _ _ _ _ _ _ d1 F (Hin _ H1)) as [B1 C1]. destruct (dt_expanded _ _ _ _ _ _ d2 F (Hin _ H2)) as [B2 C2].
    rewrite C1 in X1. rewrite C2 in X2. apply (fa_uniq _ _ _ _ _ _ F _ _ x); auto. }
  assert (Get : forall dt, In dt ds -> dget Nat.eqb (swapped cols) (dt_idx dt) = Some (nth (dt_idx dt) cols (LInt 0))).
  { intros dt Hd. rewrite swapped_get by auto. apply nth_error_nth'. rewrite L. apply (dt_expanded _ _ _ _ _ _ dt F (Hin _ Hd)). }
  destruct (rename ds (swapped cols)) as (icx & E & Nk & A & B).
  - rewrite swapped_keys by auto. apply seq_NoDup.
  - eapply Permutation_NoDup; [|exact (fa_nodup _ _ _ _ _ _ F)]. apply Permutation_map. symmetry. auto.
  - eapply Permutation_Forall; [symmetry; exact P|exact (fa_good _ _ _ _ _ _ F)].
  - exact Dc.
  - intros dt Hd. rewrite Get by auto. discriminate.
  - exists icx. split; [exact E|].
    assert (Nm : forall x, x < width X' -> exists u, dget Nat.eqb icx x = Some u /\ has_name cols (expanded X ks) x u).
    { intros x Hx. destruct (proj1 (fa_cover _ _ _ _ _ _ F x) Hx) as (a & Ha & Ix). destruct (expanded_dt _ _ _ _ _ _ a F Ha) as (dt & Hd & Ei & Ec).
      assert (Hd' : In dt ds) by (eapply Permutation_in; [symmetry; exact P|exact Hd]).
      destruct (In_nth_error _ _ Ix) as (k & Ek).
      assert (Nc' : dt_kind dt <> Cat -> dget Nat.eqb icx x = dget Nat.eqb (swapped cols) x).
      { intros Kc. apply B. intros d2 H2 K2 I2. assert (Eq : dt_idx d2 = dt_idx dt) by (apply (Dc d2 dt x); auto; rewrite Ec; auto).
        assert (d2 = dt); [|congruence]. assert (ND : NoDup (map dt_idx ds)).
        { eapply Permutation_NoDup; [|exact (fa_nodup _ _ _ _ _ _ F)]. apply Permutation_map. symmetry. auto. }
        clear - ND H2 Hd' Eq. induction ds as [|d ds IH]; [destruct H2|]. apply NoDup_cons_iff in ND. fold (map dt_idx ds) in ND. destruct ND as [Nd ND].
        destruct H2 as [->|H2]; destruct Hd' as [->|Hd']; auto; exfalso; apply Nd; [rewrite Eq|rewrite <- Eq]; apply in_map; auto. }
      destruct (dt_kind dt) eqn:Kd; cycle 1.
      { exists (category_name (nth (dt_idx dt) cols (LInt 0)) k). rewrite <- Ec in Ek. split; [eapply A; eauto|]. exists a, k. rewrite <- Ec, L, Ei. auto. }
      all: assert (Cx : columns_of (expanded X ks) a = [a]) by (rewrite <- Ec; unfold dt_columns; rewrite Kd, Ei; auto).
      all: rewrite Cx in Ix; destruct Ix as [<-|[]]; exists (nth a cols (LInt 0)); split;
        [rewrite Nc' by discriminate; rewrite <- Ei; apply Get; auto | exists a, 0; rewrite L, Cx; auto]. }
    split; auto. apply NoDup_Permutation; auto; [apply seq_NoDup|]. intros x. rewrite in_seq. split.
    + intros I. destruct (Nat.lt_ge_cases x (width X')) as [|Ge]; [lia|]. exfalso.
      assert (Q : dget Nat.eqb icx x = dget Nat.eqb (swapped cols) x).
      { apply B. intros dt Hd _ Ix. destruct (dt_expanded _ _ _ _ _ _ dt F (Hin _ Hd)) as [B1 C1]. rewrite C1 in Ix.
        assert (x < width X') by (apply (fa_cover _ _ _ _ _ _ F); eauto). lia. }
      rewrite swapped_get in Q by auto. assert (nth_error cols x = None) by (apply nth_error_None; rewrite L; pose proof (fa_width _ _ _ _ _ _ F); lia).
      rewrite H in Q. apply (dget_None _ nspec) in Q. auto.
    + intros Hx. destruct (Nm x) as (u & Eu & _); [lia|]. apply (dget_In _ nspec) in Eu. apply in_map_iff. exists (x, u). auto.
Qed.

(** ** Distinct names *)
Lemma digits_tail a b s r : all_chars is_digit s = true -> all_chars is_digit r = true -> (a ++ s)%string = (b ++ r)%string ->
  exists d, all_chars is_digit d = true /\ (a = (b ++ d)%string \/ b = (a ++ d)%string).
Proof.
  revert b. induction a as [|c a IH]; intros b Hs Hr E.
  - destruct b as [|c' b]; [exists ""; split; auto|]. cbn in E. exists (String c' b). split; [|right; reflexivity].
    rewrite E in Hs. rewrite all_chars_In in Hs. apply all_chars_In. intros x Hx. apply Hs. change (String c' (b ++ r)%string) with ((String c' b) ++ r)%string.
    rewrite chars_app. apply in_or_app. auto.
  - destruct b as [|c' b].
    + cbn in E. exists (String c a). split; [|left; reflexivity].
      rewrite <- E in Hr. rewrite all_chars_In in Hr. apply all_chars_In. intros x Hx. apply Hr. change (String c (a ++ s)%string) with ((String c a) ++ s)%string.
      rewrite chars_app. apply in_or_app. auto.
    + cbn in E. injection E as -> E. destruct (IH b Hs Hr E) as (d & Hd & [->| ->]); exists d; split; auto.
Qed.

Lemma str_app_cancel a s r : (a ++ s)%string = (a ++ r)%string -> s = r.
Proof. induction a; cbn; auto. intros [= E]. auto. Qed.

Lemma append_nil (a : string) : (a ++ "")%string = a.
Proof. induction a; cbn; congruence. Qed.

Lemma dec_not_empty k : dec k <> "".
Proof. apply dec_nonempty. Qed.

Lemma category_name_inj cols c c' k m : no_suffixes cols -> In c cols -> In c' cols -> category_name c k = category_name c' m -> c = c' /\ k = m.
Proof.
  intros NS Ic Ic' E. destruct (label_eqb_spec c c') as [<-|N].
  - split; auto. unfold category_name in E. destruct k as [|k], m as [|m]; auto.
    + destruct c as [z|s]; [discriminate|]. injection E as E. cbn [str_of] in E. exfalso. rewrite <- (append_nil s) in E at 1. apply str_app_cancel in E. symmetry in E. revert E. apply dec_not_empty.
    + destruct c as [z|s]; [discriminate|]. injection E as E. cbn [str_of] in E. exfalso. rewrite <- (append_nil s) in E at 2. apply str_app_cancel in E. revert E. apply dec_not_empty.
    + injection E as E. apply str_app_cancel in E. apply dec_inj in E. auto.
  - exfalso. unfold category_name in E. destruct k as [|k], m as [|m]; auto.
    + subst c. cbn [str_of] in *. apply (NS c' (LStr (str_of c' ++ dec (S m))) (dec (S m))); auto using dec_digits.
    + subst c'. apply (NS c (LStr (str_of c ++ dec (S k))) (dec (S k))); auto using dec_digits.
    + injection E as E. destruct (digits_tail _ _ _ _ (dec_digits (S k)) (dec_digits (S m)) E) as (d & Hd & [Q|Q]).
      * apply (NS c' c d); auto.
      * apply (NS c c' d); auto.
Qed.

Lemma names_distinct cols X ks t dts X' t' x y u : facts X ks t dts X' t' -> NoDup cols -> List.length cols = m_cols X -> no_suffixes cols ->
  has_name cols (expanded X ks) x u -> has_name cols (expanded X ks) y u -> x = y.
Proof.
  intros F Nc L NS (a & k & Ha & Ek & ->) (b & m & Hb & Em & E).
  apply (category_name_inj cols) in E; auto; try (apply nth_In; auto). destruct E as [E <-].
  assert (a = b). { apply (proj1 (NoDup_nth cols (LInt 0)) Nc); auto. } subst b. congruence.
Qed.
