(** * DotProofs: what the graphviz text of a network says. *)
From Coq Require Import List Bool Arith Lia String Ascii Permutation Sorted.
From Verif Require Import Base BbnModel BbnBuild DotModel.
Import ListNotations.
Local Open Scope string_scope.
Local Open Scope list_scope.

(** ** Specification *)

(** The text with these nodes and edges: lines, each ended by a newline. *)
Definition text_of_lines (l : list string) : string := String.concat "" (map (fun s => s ++ String (ascii_of_nat 10) "")%string l).
Definition dot_lines (N : list string) (E : list (string * string)) : list string :=
  ["digraph G {"; "  graph [ dpi = 300 bgcolor=""transparent"" rankdir=""LR""];"]
  ++ map (fun x => "  " ++ x ++ " [ shape=""ellipse"" color=""blue""];")%string N
  ++ map (fun e => "  " ++ fst e ++ " -> " ++ snd e ++ ";")%string E ++ ["}"].

(** The name of the function of [p] and that of the function of [c] are linked: [c]'s function has the variable [p] as
    an argument. *)
Definition linked_names (vfs : list (string * factor)) (x y : string) : Prop :=
  exists p f c g, In (p, f) vfs /\ In (c, g) vfs /\ fname f = x /\ fname g = y /\ In p (fargs g) /\ p <> c.
Definition names_of (vfs : list (string * factor)) : list string := map (fun vf => fname (snd vf)) vfs.

(** In the order of the names, with no name twice; the same for pairs. *)
Definition pair_before (e f : string * string) : Prop :=
  if String.eqb (fst e) (fst f) then sleb (snd e) (snd f) = true else sleb (fst e) (fst f) = true.

(** Names without spaces and newlines, such as identifiers. *)
Fixpoint plain (s : string) : Prop :=
  match s with EmptyString => True | String c r => c <> " "%char /\ c <> ascii_of_nat 10 /\ plain r end.

(** ** Texts *)

Lemma append_assoc a b c : ((a ++ b) ++ c = a ++ (b ++ c))%string.
Proof. induction a; cbn; congruence. Qed.

Lemma concat_nil_app l m : (String.concat "" (l ++ m) = String.concat "" l ++ String.concat "" m)%string.
Proof.
  assert (C : forall x r, String.concat "" (x :: r) = (x ++ String.concat "" r)%string).
  { intros x [|y r]; cbn; [|reflexivity]. induction x; cbn; congruence. }
  induction l as [|x l IH]; [reflexivity|]. cbn [app]. rewrite !C, IH. rewrite append_assoc. auto.
Qed.
Lemma concat_nil_cons x r : String.concat "" (x :: r) = (x ++ String.concat "" r)%string.
Proof. change (x :: r) with ([x] ++ r). rewrite concat_nil_app. reflexivity. Qed.

Lemma text_app l m : text_of_lines (l ++ m) = (text_of_lines l ++ text_of_lines m)%string.
Proof. unfold text_of_lines. rewrite map_app. apply concat_nil_app. Qed.

Lemma source_text N E :
  (first_lines ++ String.concat "" (map node_line N) ++ String.concat "" (map edge_line E) ++ "}" ++ eol)%string = text_of_lines (dot_lines N E).
Proof.
  unfold dot_lines. rewrite !text_app. f_equal. f_equal.
  - unfold text_of_lines. rewrite map_map. f_equal. apply map_ext. intros x. unfold node_line. rewrite !append_assoc. reflexivity.
  - f_equal. unfold text_of_lines. rewrite map_map. f_equal. apply map_ext. intros x. unfold edge_line. rewrite !append_assoc. reflexivity.
Qed.

(** ** Reading the text back *)

Fixpoint no_eol (s : string) : Prop := match s with EmptyString => True | String c r => c <> ascii_of_nat 10 /\ no_eol r end.

Lemma no_eol_app a b : no_eol a -> no_eol b -> no_eol (a ++ b)%string.
Proof. induction a; cbn; tauto. Qed.
Lemma plain_no_eol a : plain a -> no_eol a.
Proof. induction a; cbn; tauto. Qed.

Lemma first_line a b x y : no_eol a -> no_eol b -> (a ++ String (ascii_of_nat 10) x = b ++ String (ascii_of_nat 10) y)%string -> a = b /\ x = y.
Proof.
  revert b. induction a as [|c a IH]; intros [|d b]; cbn [no_eol String.append]; intros Ha Hb E.
  - injection E as E. auto.
  - injection E as E _. exfalso. apply (proj1 Hb). auto.
  - injection E as E _. exfalso. apply (proj1 Ha). auto.
  - injection E as -> E. destruct (IH b (proj2 Ha) (proj2 Hb) E) as [-> ->]. auto.
Qed.

Lemma first_word a b x y : plain a -> plain b -> (a ++ String " " x = b ++ String " " y)%string -> a = b /\ x = y.
Proof.
  revert b. induction a as [|c a IH]; intros [|d b]; cbn [plain String.append]; intros Ha Hb E.
  - injection E as E. auto.
  - injection E as E _. exfalso. apply (proj1 Hb). auto.
  - injection E as E _. exfalso. apply (proj1 Ha). auto.
  - injection E as -> E. destruct (IH b (proj2 (proj2 Ha)) (proj2 (proj2 Hb)) E) as [-> ->]. auto.
Qed.

Lemma lines_inj l : forall m, Forall no_eol l -> Forall no_eol m -> text_of_lines l = text_of_lines m -> l = m.
Proof.
  unfold text_of_lines. induction l as [|a l IH]; intros [|b m] Hl Hm E; auto.
  - cbn [map] in E. rewrite concat_nil_cons, append_assoc in E. destruct b; discriminate.
  - cbn [map] in E. rewrite concat_nil_cons, append_assoc in E. destruct a; discriminate.
  - cbn [map] in E. rewrite !concat_nil_cons, !append_assoc in E. inversion Hl; inversion Hm; subst. apply first_line in E as [-> E]; auto. f_equal. auto.
Qed.

Ltac noeol := repeat (split; [discriminate|]); exact I.

Lemma dot_no_eol N E : Forall plain N -> Forall (fun e => plain (fst e) /\ plain (snd e)) E -> Forall no_eol (dot_lines N E).
Proof.
  intros HN HE. unfold dot_lines. apply Forall_app; split; [|apply Forall_app; split; [|apply Forall_app; split]].
  - apply Forall_cons; [cbn; noeol|]. apply Forall_cons; [cbn; noeol|apply Forall_nil].
  - apply Forall_map. eapply Forall_impl; [|exact HN]. intros x Hx. cbn beta. apply no_eol_app; [cbn; noeol|]. apply no_eol_app; [apply plain_no_eol; auto|cbn; noeol].
  - apply Forall_map. eapply Forall_impl; [|exact HE]. intros [x y] [Hx Hy]. cbn [fst snd] in *. apply no_eol_app; [cbn; noeol|]. apply no_eol_app; [apply plain_no_eol; auto|]. apply no_eol_app; [cbn; noeol|]. apply no_eol_app; [apply plain_no_eol; auto|cbn; noeol].
  - apply Forall_cons; [cbn; noeol|apply Forall_nil].
Qed.

Lemma append_inj_r a : forall b c, (a ++ c = b ++ c)%string -> a = b.
Proof.
  assert (L : forall x y : string, String.length (x ++ y) = String.length x + String.length y) by (induction x; cbn; intros; auto).
  induction a as [|x a IH]; intros [|y b] c E; auto.
  - apply (f_equal String.length) in E. rewrite L in E. cbn in E. rewrite L in E. lia.
  - apply (f_equal String.length) in E. cbn in E. rewrite !L in E. lia.
  - cbn in E. injection E as -> E. f_equal. eapply IH; eauto.
Qed.

Lemma dot_inj N E N' E' : Forall plain N -> Forall plain N' -> Forall (fun e => plain (fst e) /\ plain (snd e)) E -> Forall (fun e => plain (fst e) /\ plain (snd e)) E' ->
  text_of_lines (dot_lines N E) = text_of_lines (dot_lines N' E') -> N = N' /\ E = E'.
Proof.
  intros HN HN' HE HE' T. apply lines_inj in T; [|apply dot_no_eol; auto|apply dot_no_eol; auto].
  unfold dot_lines in T. injection T as T.
  assert (Edges : forall E E', Forall (fun e => plain (fst e) /\ plain (snd e)) E -> Forall (fun e => plain (fst e) /\ plain (snd e)) E' ->
    map (fun e => "  " ++ fst e ++ " -> " ++ snd e ++ ";")%string E ++ ["}"] = map (fun e => "  " ++ fst e ++ " -> " ++ snd e ++ ";")%string E' ++ ["}"] -> E = E').
  { clear. induction E as [|[x y] E IH]; intros [|[x' y'] E'] H H' Q; auto.
    - cbn in Q. discriminate.
    - cbn in Q. discriminate.
    - cbn [map app fst snd] in Q. injection Q as Q R. inversion H as [|? ? [K1 K2] K3]; subst; inversion H' as [|? ? [L1 L2] L3]; subst. cbn [fst snd] in *.
      apply first_word in Q as [-> Q]; auto. injection Q as Q. apply append_inj_r in Q. subst y'. f_equal. apply IH; auto. }
  revert N' HN' T. induction N as [|x N IH]; intros [|x' N'] HN' T; cbn [map app] in T.
  - split; auto.
  - exfalso. destruct E as [|[y z] E]; cbn [map app fst snd] in T; [discriminate|]. injection T as T _. inversion HN' as [|? ? Hx _]; subst; inversion HE as [|? ? [Hy _] _]; subst. apply first_word in T as [_ T]; auto. discriminate.
  - exfalso. destruct E' as [|[y z] E']; cbn [map app fst snd] in T; [discriminate|]. injection T as T _. inversion HN as [|? ? Hx _]; subst; inversion HE' as [|? ? [Hy _] _]; subst. apply first_word in T as [_ T]; auto. discriminate.
  - injection T as T R. inversion HN as [|? ? K1 K2]; subst; inversion HN' as [|? ? L1 L2]; subst. apply first_word in T as [-> _]; auto. destruct (IH K2 N' L2 R) as [-> ->]. auto.
Qed.

(** ** Nodes and edges *)

Lemma dot_pair_eqb_spec e f : reflect (e = f) (dot_pair_eqb e f).
Proof. destruct e as [a b], f as [c d]. unfold dot_pair_eqb; cbn. destruct (String.eqb_spec a c), (String.eqb_spec b d); cbn; constructor; congruence. Qed.

Lemma add_edges_spec l : forall acc, NoDup acc -> NoDup (fold_left add_edge l acc) /\ forall e, In e (fold_left add_edge l acc) <-> In e acc \/ In e l.
Proof.
  induction l as [|x l IH]; intros acc N; cbn [fold_left]; [split; auto; intros e; cbn; tauto|].
  assert (A : NoDup (add_edge acc x) /\ forall e, In e (add_edge acc x) <-> In e acc \/ e = x).
  { unfold add_edge. destruct (existsb (dot_pair_eqb x) acc) eqn:X.
    - apply existsb_exists in X as (y & I & Q). destruct (dot_pair_eqb_spec x y) as [->|]; [|discriminate]. split; auto. intros e. split; [auto|intros [?| ->]; auto].
    - split.
      + apply (Permutation_NoDup (Permutation_cons_append _ _)). constructor; auto. intros I. assert (existsb (dot_pair_eqb x) acc = true); [|congruence]. apply existsb_exists. exists x. split; auto. destruct (dot_pair_eqb_spec x x); auto.
      + intros e. rewrite in_app_iff. cbn. intuition. }
  destruct A as [A1 A2]. destruct (IH _ A1) as [B1 B2]. split; auto. intros e. rewrite B2, A2. cbn. intuition.
Qed.

Lemma dot_pair_total e f : dot_pair_leb e f = true \/ dot_pair_leb f e = true.
Proof.
  unfold dot_pair_leb. rewrite (String.eqb_sym (fst f)). destruct (String.eqb (fst e) (fst f)); apply sleb_total.
Qed.
Lemma dot_pair_trans e f g : dot_pair_leb e f = true -> dot_pair_leb f g = true -> dot_pair_leb e g = true.
Proof.
  unfold dot_pair_leb. destruct e as [a b], f as [c d], g as [x y]; cbn.
  destruct (String.eqb_spec a c) as [->|N1], (String.eqb_spec c x) as [->|N2]; auto; intros H1 H2.
  - eapply sleb_trans; eauto.
  - destruct (String.eqb_spec a x); [congruence|]. auto.
  - destruct (String.eqb_spec a x) as [->|]; [exfalso; apply N1, sleb_antisym; auto|]. eapply sleb_trans; eauto.
Qed.
Lemma dot_pair_antisym e f : dot_pair_leb e f = true -> dot_pair_leb f e = true -> e = f.
Proof.
  unfold dot_pair_leb. destruct e as [a b], f as [c d]; cbn. rewrite (String.eqb_sym c). destruct (String.eqb_spec a c) as [->|N]; intros H1 H2.
  - f_equal. apply sleb_antisym; auto.
  - exfalso. apply N, sleb_antisym; auto.
Qed.

Lemma insert_map {A B} (f : A -> B) le x l : map f (insert_s (fun a b => le (f a) (f b)) x l) = insert_s le (f x) (map f l).
Proof. induction l as [|y l IH]; cbn; auto. destruct (le (f x) (f y)); cbn; congruence. Qed.
Lemma sort_map {A B} (f : A -> B) le l : map f (isort (fun a b => le (f a) (f b)) l) = isort le (map f l).
Proof. induction l as [|x l IH]; cbn; auto. rewrite insert_map, IH. auto. Qed.

Section Source.
  Context (vfs : list (string * factor)) (GF : good_factors vfs).

  Definition dot_names : list string := ssort (names_of vfs).

  Theorem source_says doms : exists b E, build_bbn (map snd vfs) doms = Ok b /\
    get_graphviz_source b = text_of_lines (dot_lines dot_names E) /\ NoDup dot_names /\ NoDup E /\
    StronglySorted (fun x y => sleb x y = true) dot_names /\ StronglySorted pair_before E /\ E = isort dot_pair_leb E /\
    (forall x, In x dot_names <-> In x (names_of vfs)) /\ (forall x y, In (x, y) E <-> linked_names vfs x y).
  Proof using GF.
    destruct (build_bbn_ok vfs GF doms) as (b & Eb & _ & P & Pa & _). exists b.
    set (l := flat_map (fun n => map (fun c => (node_name n, node_name c)) (children b n)) (isort (fun n m => sleb (node_name n) (node_name m)) (bnodes b))).
    destruct (add_edges_spec l [] (NoDup_nil _)) as [ND In0]. exists (isort dot_pair_leb (fold_left add_edge l [])). split; auto.
    assert (PN : Permutation (map node_name (bnodes b)) (names_of vfs)).
    { unfold names_of. rewrite <- P, map_map. cbn [snd]. apply Permutation_refl. }
    split.
    { rewrite <- source_text. unfold get_graphviz_source. fold l. rewrite <- (map_map node_name node_line), sort_map. do 3 f_equal. unfold dot_names, ssort.
      rewrite (isort_perm_eq sleb sleb_total sleb_trans sleb_antisym _ _ PN). auto. }
    split; [apply isort_NoDup, (gf_names _ GF)|]. split; [apply isort_NoDup; auto|]. split; [apply isort_sorted; [apply sleb_total|apply sleb_trans]|].
    split.
    { pose proof (isort_sorted dot_pair_leb dot_pair_total dot_pair_trans (fold_left add_edge l [])) as S. eapply StronglySorted_ind with (P := fun l => StronglySorted pair_before l); [constructor| |exact S].
      intros e m _ IH F. constructor; auto. eapply Forall_impl; [|exact F]. intros f. unfold pair_before, dot_pair_leb. destruct (String.eqb (fst e) (fst f)); auto. }
    split; [symmetry; apply isort_idem; [apply dot_pair_total|apply dot_pair_trans|apply dot_pair_antisym]|].
    split; [intros x; apply isort_In|].
    assert (K : forall v f, In (v, f) vfs <-> exists n, In n (bnodes b) /\ nvar n = v /\ nfac n = f).
    { intros v f. split.
      - intros I. apply (Permutation_in _ (Permutation_sym P)) in I. apply in_map_iff in I as (n & E & I). injection E as <- <-. eauto.
      - intros (n & I & <- & <-). apply (Permutation_in _ P). apply in_map_iff. exists n. auto. }
    intros x y. rewrite isort_In, In0. unfold l. rewrite in_flat_map. split.
    - intros [[]|(n & I & J)]. apply isort_In in I. apply in_map_iff in J as (c & E & J). injection E as <- <-. apply filter_In in J as [J S]. apply (memb_In _ String.eqb_spec) in S.
      rewrite (Pa c J) in S. apply other_args_In in S as [S1 S2]. exists (nvar n), (nfac n), (nvar c), (nfac c). rewrite !K. repeat split; eauto.
    - intros (p & f & c & g & I & J & <- & <- & S & N). apply K in I as (n & I & <- & <-). apply K in J as (m & J & <- & <-). right. exists n. split; [apply isort_In; auto|].
      apply in_map_iff. exists m. split; auto. apply filter_In. split; auto. apply (memb_In _ String.eqb_spec). rewrite (Pa m J). apply other_args_In. auto.
  Qed.
End Source.

(** Sets decide the sorted lists. *)
Lemma sorted_pairs_eq E E' : NoDup E -> NoDup E' -> E = isort dot_pair_leb E -> E' = isort dot_pair_leb E' -> (forall e, In e E <-> In e E') -> E = E'.
Proof.
  intros N N' S S' H. rewrite S, S'. apply isort_perm_eq; [apply dot_pair_total|apply dot_pair_trans|apply dot_pair_antisym|]. apply NoDup_Permutation; auto.
Qed.
