(** * PlotAttrs: what _add_attributes leaves in the attributes of the copy and of the original. *)
From Coq Require Import List Bool Arith ZArith Lia String Ascii.
From Verif Require Import Base Names SmModel NetModel PlotModel.
Import ListNotations.
Local Open Scope string_scope.
Local Open Scope list_scope.

Lemma hset_length h a d : a < List.length h -> List.length (hset h a d) = List.length h.
Proof. intros L. unfold hset. rewrite app_length; cbn [List.length]. rewrite firstn_length, skipn_length. lia. Qed.

Lemma hread_hset_same h a d : a < List.length h -> hread (hset h a d) a = d.
Proof.
  intros L. unfold hread, hset. rewrite app_nth2; rewrite firstn_length; [|lia]. replace (a - Nat.min a (List.length h)) with 0 by lia. auto.
Qed.

Lemma hread_hset_other h a b d : a < List.length h -> a <> b -> hread (hset h a d) b = hread h b.
Proof.
  intros L N. unfold hread. assert (E : h = firstn a h ++ nth a h [] :: skipn (S a) h).
  { rewrite <- (firstn_skipn a h) at 1. f_equal. clear N. revert a L. induction h as [|x h IH]; intros a L; [cbn in L; lia|]. destruct a; cbn; auto. apply IH. cbn in L. lia. }
  rewrite E at 2. unfold hset. assert (F : List.length (firstn a h) = a) by (rewrite firstn_length; lia).
  destruct (Nat.lt_ge_cases b a) as [B|B].
  - rewrite !app_nth1 by lia. auto.
  - rewrite !app_nth2 by lia. rewrite F. destruct (b - a) eqn:D; [lia|]. auto.
Qed.

(** Updating the dictionaries at distinct addresses *)
Section Update.
  Context {X : Type} (adr : X -> nat) (g : X -> list (string * aval) -> list (string * aval)).
  Definition upd (h : heap) (x : X) : heap := hset h (adr x) (g x (hread h (adr x))).

  Lemma upd_length l h : (forall x, In x l -> adr x < List.length h) -> List.length (fold_left upd l h) = List.length h.
  Proof using.
    revert h. induction l as [|x l IH]; intros h H; cbn [fold_left]; auto. rewrite IH.
    - apply hset_length. apply H; cbn; auto.
    - intros y Hy. unfold upd. rewrite hset_length by (apply H; cbn; auto). apply H; cbn; auto.
  Qed.

  Lemma upd_other l h a : (forall x, In x l -> adr x < List.length h) -> (forall x, In x l -> adr x <> a) -> hread (fold_left upd l h) a = hread h a.
  Proof using.
    revert h. induction l as [|x l IH]; intros h H N; cbn [fold_left]; auto. rewrite IH.
    - apply hread_hset_other; [apply H|apply N]; cbn; auto.
    - intros y Hy. unfold upd. rewrite hset_length by (apply H; cbn; auto). apply H; cbn; auto.
    - intros y Hy. apply N; cbn; auto.
  Qed.

  Lemma upd_at l h x : NoDup (map adr l) -> (forall x, In x l -> adr x < List.length h) -> In x l -> hread (fold_left upd l h) (adr x) = g x (hread h (adr x)).
  Proof using.
    revert h. induction l as [|y l IH]; intros h ND H I; [destruct I|]. cbn in ND. inversion ND as [|? ? NI ND']; subst. cbn [fold_left].
    assert (Hl : forall x, In x l -> adr x < List.length (upd h y)).
    { intros z Hz. unfold upd. rewrite hset_length by (apply H; cbn; auto). apply H; cbn; auto. }
    destruct I as [->|I].
    - rewrite upd_other; auto.
      + unfold upd. apply hread_hset_same. apply H; cbn; auto.
      + intros z Hz E. apply NI. rewrite <- E. apply in_map; auto.
    - rewrite IH; auto. f_equal. apply hread_hset_other; [apply H; cbn; auto|]. intros E. apply NI. rewrite E. apply in_map; auto.
  Qed.
End Update.

(** Setting each of several attributes on all addresses *)
Definition set_all (addrs : list nat) (kvs : list (string * aval)) (h : heap) : heap := fold_left (fun h kv => set_one addrs (fst kv) (snd kv) h) kvs h.

Lemma set_one_upd addrs k v h : set_one addrs k v h = fold_left (upd (fun a => a) (fun _ d => dset String.eqb d k v)) addrs h.
Proof. reflexivity. Qed.

Lemma set_all_spec addrs kvs h : NoDup addrs -> (forall a, In a addrs -> a < List.length h) ->
  List.length (set_all addrs kvs h) = List.length h /\
  (forall a, In a addrs -> hread (set_all addrs kvs h) a = dupdate String.eqb (hread h a) kvs) /\
  (forall a, ~ In a addrs -> hread (set_all addrs kvs h) a = hread h a).
Proof.
  intros ND. revert h. induction kvs as [|[k v] kvs IH]; intros h H; [cbn; auto|].
  assert (L : List.length (set_one addrs k v h) = List.length h) by (rewrite set_one_upd; apply upd_length; auto).
  destruct (IH (set_one addrs k v h)) as (I1 & I2 & I3). { intros a Ha. rewrite L. auto. }
  change (set_all addrs ((k, v) :: kvs) h) with (set_all addrs kvs (set_one addrs k v h)). split; [congruence|]. split; intros a Ha.
  - rewrite I2 by auto. rewrite set_one_upd. rewrite (upd_at (fun a => a) (fun _ d => dset String.eqb d k v) addrs h a); auto. rewrite map_id. auto.
  - rewrite I3 by auto. rewrite set_one_upd. apply upd_other; auto. intros x Hx ->. auto.
Qed.

Lemma snd_inj {A} (l : list (A * nat)) x y a : NoDup (map snd l) -> In (x, a) l -> In (y, a) l -> x = y.
Proof.
  induction l as [|[k b] l IH]; intros N H1 H2; [destruct H1|]. cbn in N. inversion N as [|? ? NI ND]; subst. destruct H1 as [H1|H1], H2 as [H2|H2].
  - congruence.
  - injection H1 as -> ->. exfalso. apply NI. apply in_map_iff. exists (y, a); auto.
  - injection H2 as -> ->. exfalso. apply NI. apply in_map_iff. exists (x, a); auto.
  - eapply IH; eauto.
Qed.

Section Specific.
  Context {K : Type} (eqb : K -> K -> bool) (spec : forall x y, reflect (x = y) (eqb x y)).
  Lemma set_specific_spec addrs (values : list (K * list (string * aval))) h :
    NoDup (map fst addrs) -> NoDup (map snd addrs) -> (forall x, In x addrs -> snd x < List.length h) -> NoDup (map fst values) ->
    List.length (set_specific eqb addrs values h) = List.length h /\
    (forall k a, In (k, a) addrs -> hread (set_specific eqb addrs values h) a = match dget eqb values k with Some d => dupdate String.eqb (hread h a) d | None => hread h a end) /\
    (forall a, ~ In a (map snd addrs) -> hread (set_specific eqb addrs values h) a = hread h a).
  Proof using spec.
    intros N1 N2 H NV. revert h H. induction values as [|[k d] values IH]; intros h H; [cbn; auto|]. cbn in NV. inversion NV as [|? ? NI NV']; subst.
    cbn [set_specific fold_left fst snd]. destruct (dget eqb addrs k) as [a0|] eqn:E.
    - assert (I0 : In (k, a0) addrs) by (eapply dget_In; eauto). assert (L0 : a0 < List.length h) by (apply (H (k, a0)); auto).
      destruct (IH NV' (hset h a0 (dupdate String.eqb (hread h a0) d))) as (J1 & J2 & J3). { intros x Hx. rewrite hset_length; auto. }
      fold (set_specific eqb addrs values (hset h a0 (dupdate String.eqb (hread h a0) d))).
      split; [rewrite J1; apply hset_length; auto|]. split.
      + intros k1 a Ha. rewrite J2 with (k := k1) by auto. cbn [dget]. destruct (spec k1 k) as [->|Ne].
        * assert (a = a0). { pose proof (In_dget eqb spec addrs _ _ N1 Ha) as Q. congruence. } subst a.
          assert (dget eqb values k = None) as ->. { apply dget_None; auto. }
          apply hread_hset_same; auto.
        * assert (a <> a0).
          { intros ->. apply Ne. eapply snd_inj; eauto. }
          rewrite hread_hset_other by auto. auto.
      + intros a Ha. rewrite J3 by auto. apply hread_hset_other; auto. intros ->. apply Ha. apply in_map_iff. exists (k, a); auto.
    - destruct (IH NV' h H) as (J1 & J2 & J3). split; auto. split; auto. intros k1 a Ha. fold (set_specific eqb addrs values h). rewrite J2 with (k := k1) by auto. cbn [dget].
      destruct (spec k1 k) as [->|Ne]; auto. exfalso. rewrite (In_dget eqb spec addrs _ _ N1 Ha) in E. discriminate.
  Qed.
End Specific.

(** ** Specification *)

(** A structure whose attribute dictionaries are separate objects of the heap, and styles that are objects of
    the heap too (they may be the same as other dictionaries). *)
Record separate (h : heap) (sm : pgraph) : Prop := {
  sep_nodes : NoDup (map fst (pg_nodes sm));
  sep_edges : NoDup (map fst (pg_edges sm));
  sep_addrs : NoDup (map snd (pg_nodes sm) ++ map snd (pg_edges sm));
  sep_old : forall a, In a (map snd (pg_nodes sm) ++ map snd (pg_edges sm)) -> a < List.length h }.

(** The first that says something. *)
Fixpoint first_of (l : list (option aval)) : option aval :=
  match l with [] => None | Some v :: _ => Some v | None :: l => first_of l end.

Definition attr (d : list (string * aval)) (k : string) : option aval := dget String.eqb d k.
Definition attr_of {K} (eqb : K -> K -> bool) (l : list (K * list (string * aval))) (x : K) (k : string) : option aval :=
  match dget eqb l x with Some d => attr d k | None => None end.

Lemma attr_dupdate d e k : NoDup (map fst e) -> attr (dupdate String.eqb d e) k = match attr e k with Some v => Some v | None => attr d k end.
Proof. intros N. unfold attr. rewrite (dget_dupdate _ String.eqb_spec). rewrite dget_rev_NoDup; auto. apply String.eqb_spec. Qed.

Lemma attr_dset d k0 v k : attr (dset String.eqb d k0 v) k = if String.eqb k k0 then Some v else attr d k.
Proof.
  unfold attr. destruct (String.eqb_spec k k0) as [->|N]; [apply dget_dset_same|apply dget_dset_other; auto]; apply String.eqb_spec.
Qed.

Lemma edge_eqb_spec : forall x y, reflect (x = y) (edge_eqb x y).
Proof.
  intros [a b] [c d]. unfold edge_eqb; cbn. destruct (label_eqb_spec a c), (label_eqb_spec b d); cbn; constructor; congruence.
Qed.

Lemma hread_app_l h e a : a < List.length h -> hread (h ++ e) a = hread h a.
Proof. intros L. unfold hread. apply app_nth1; auto. Qed.

Lemma hread_app_at h d : hread (h ++ [d]) (List.length h) = d.
Proof. unfold hread. rewrite app_nth2 by lia. rewrite Nat.sub_diag. auto. Qed.

Lemma firstn_hread h h' : List.length h <= List.length h' -> (forall a, a < List.length h -> hread h' a = hread h a) -> firstn (List.length h) h' = h.
Proof.
  intros L E. apply nth_ext with (d := []) (d' := []); [rewrite firstn_length; lia|]. intros a Ha. rewrite firstn_length in Ha.
  unfold hread in E. rewrite <- (E a) by lia. clear E. revert h' L a Ha. generalize (List.length h) as m. induction m as [|m IH]; intros h' L a Ha; [lia|].
  destruct h' as [|x h']; [cbn in L; lia|]. destruct a; cbn; auto. apply IH; cbn in *; lia.
Qed.

Lemma NoDup_shift {A} m (l : list (A * nat)) : NoDup (map snd l) -> NoDup (map snd (map (fun x => (fst x, (m + snd x)%nat)) l)).
Proof.
  rewrite map_map; cbn. intros N. rewrite <- (map_map snd (fun a => m + a)). apply FinFun.Injective_map_NoDup; auto. intros x y E. lia.
Qed.

Lemma NoDup_app_l {A} (l m : list A) : NoDup (l ++ m) -> NoDup l.
Proof. induction l; cbn; intros N; [constructor|]. inversion N; subst. constructor; auto. intros I. apply H1. apply in_or_app; auto. Qed.
Lemma NoDup_app_r {A} (l m : list A) : NoDup (l ++ m) -> NoDup m.
Proof. induction l; cbn; intros N; auto. inversion N; auto. Qed.
Lemma NoDup_app_disj {A} (l m : list A) x : NoDup (l ++ m) -> In x l -> In x m -> False.
Proof. induction l; cbn; intros N I J; [destruct I|]. inversion N; subst. destruct I as [->|I]; auto. apply H1. apply in_or_app; auto. Qed.

(** The text of the label of a node. *)
Definition label_text (n : label) : aval := AStr (str_of n ++ newline ++ newline ++ " ")%string.

Section Main.
  Context (ns es : nat) (h : heap) (sm : pgraph) (all_node all_edge : list (string * aval))
    (node : list (label * list (string * aval))) (edge : list (label * label * list (string * aval))).
  Context (SEP : separate h sm) (Hns : ns < List.length h) (Hes : es < List.length h).
  Context (Nns : NoDup (map fst (hread h ns))) (Nes : NoDup (map fst (hread h es))) (Nan : NoDup (map fst all_node)) (Nae : NoDup (map fst all_edge))
    (Nn : NoDup (map fst node)) (Ne : NoDup (map fst edge)).
  Context (Nnv : forall x d, In (x, d) node -> NoDup (map fst d)) (Nev : forall x d, In (x, d) edge -> NoDup (map fst d)).

  Let m := List.length h.
  Let gn := map (fun na => (fst na, (m + snd na)%nat)) (pg_nodes sm).
  Let ge := map (fun ea => (fst ea, (m + snd ea)%nat)) (pg_edges sm).
  Let h1 := h ++ h.
  Let h2 := fold_left (upd (fun na : label * nat => snd na) (fun na d => dset String.eqb d "label" (label_text (fst na)))) gn h1.
  Let h3 := h2 ++ [hread h2 ns].
  Let h4 := hset h3 (List.length h2) (dupdate String.eqb (hread h3 (List.length h2)) all_node).
  Let h5 := set_all (map snd gn) (hread h4 (List.length h2)) h4.
  Let h6 := h5 ++ [hread h5 es].
  Let h7 := hset h6 (List.length h5) (dupdate String.eqb (hread h6 (List.length h5)) all_edge).
  Let h8 := set_all (map snd ge) (hread h7 (List.length h5)) h7.
  Let h9 := set_specific label_eqb gn node h8.
  Let h10 := set_specific edge_eqb ge edge h9.

  Lemma unfold_add : add_attributes ns es h sm all_node all_edge node edge = (h10, mkPg gn ge).
  Proof. reflexivity. Qed.

  Lemma gn_in n a : In (n, a) gn <-> exists a0, In (n, a0) (pg_nodes sm) /\ a = m + a0.
  Proof. unfold gn. rewrite in_map_iff. split; [intros ([x y] & E & I); injection E as <- <-; eauto|intros (a0 & I & ->); exists (n, a0); auto]. Qed.
  Lemma ge_in e a : In (e, a) ge <-> exists a0, In (e, a0) (pg_edges sm) /\ a = m + a0.
  Proof. unfold ge. rewrite in_map_iff. split; [intros ([x y] & E & I); injection E as <- <-; eauto|intros (a0 & I & ->); exists (e, a0); auto]. Qed.

  Lemma gn_addr a : In a (map snd gn) -> m <= a < m + m.
  Proof. intros H. apply in_map_iff in H as ([n b] & <- & I). apply gn_in in I as (a0 & I & ->). cbn. assert (a0 < m); [|lia]. apply (sep_old _ _ SEP). apply in_or_app; left. apply in_map_iff. exists (n, a0); auto. Qed.
  Lemma ge_addr a : In a (map snd ge) -> m <= a < m + m.
  Proof. intros H. apply in_map_iff in H as ([n b] & <- & I). apply ge_in in I as (a0 & I & ->). cbn. assert (a0 < m); [|lia]. apply (sep_old _ _ SEP). apply in_or_app; right. apply in_map_iff. exists (n, a0); auto. Qed.
  Lemma gn_nodup : NoDup (map snd gn). Proof. apply NoDup_shift. eapply NoDup_app_l. apply (sep_addrs _ _ SEP). Qed.
  Lemma ge_nodup : NoDup (map snd ge). Proof. apply NoDup_shift. eapply NoDup_app_r. apply (sep_addrs _ _ SEP). Qed.
  Lemma gn_names : map fst gn = map fst (pg_nodes sm). Proof. unfold gn. rewrite map_map. auto. Qed.
  Lemma ge_names : map fst ge = map fst (pg_edges sm). Proof. unfold ge. rewrite map_map. auto. Qed.
  Lemma g_disj a : In a (map snd gn) -> In a (map snd ge) -> False.
  Proof.
    intros H1 H2. apply in_map_iff in H1 as ([n b] & <- & I). apply gn_in in I as (a0 & I & ->). apply in_map_iff in H2 as ([e b] & E & J). cbn in E. apply ge_in in J as (a1 & J & ->).
    assert (a1 = a0) by lia. subst a1. apply (NoDup_app_disj _ _ a0 (sep_addrs _ _ SEP)); apply in_map_iff; [exists (n, a0)|exists (e, a0)]; auto.
  Qed.

  Lemma len1 : List.length h1 = m + m. Proof. unfold h1. rewrite app_length. auto. Qed.
  Lemma gn_lt1 : forall x, In x gn -> snd x < List.length h1.
  Proof. intros x Hx. rewrite len1. apply (in_map snd) in Hx. apply gn_addr in Hx. lia. Qed.
  Lemma len2 : List.length h2 = m + m. Proof. unfold h2. rewrite upd_length; [apply len1|apply gn_lt1]. Qed.
  Lemma len3 : List.length h3 = m + m + 1. Proof. unfold h3. rewrite app_length, len2. auto. Qed.
  Lemma len4 : List.length h4 = m + m + 1. Proof. unfold h4. rewrite hset_length; rewrite len3; auto. rewrite len2. lia. Qed.
  Lemma gn_lt4 : forall a, In a (map snd gn) -> a < List.length h4. Proof. intros a H. apply gn_addr in H. rewrite len4. lia. Qed.
  Lemma len5 : List.length h5 = m + m + 1.
  Proof. unfold h5. destruct (set_all_spec (map snd gn) (hread h4 (List.length h2)) h4 gn_nodup gn_lt4) as (-> & _). apply len4. Qed.
  Lemma len6 : List.length h6 = m + m + 2. Proof. unfold h6. rewrite app_length, len5. cbn. lia. Qed.
  Lemma len7 : List.length h7 = m + m + 2. Proof. unfold h7. rewrite hset_length; rewrite len6; auto. rewrite len5. lia. Qed.
  Lemma ge_lt7 : forall a, In a (map snd ge) -> a < List.length h7. Proof. intros a H. apply ge_addr in H. rewrite len7. lia. Qed.
  Lemma len8 : List.length h8 = m + m + 2.
  Proof. unfold h8. destruct (set_all_spec (map snd ge) (hread h7 (List.length h5)) h7 ge_nodup ge_lt7) as (-> & _). apply len7. Qed.
  Lemma gn_lt8 : forall x, In x gn -> snd x < List.length h8. Proof. intros x H. apply (in_map snd) in H. apply gn_addr in H. rewrite len8. lia. Qed.

  Lemma r2_other a : ~ In a (map snd gn) -> hread h2 a = hread h1 a.
  Proof. intros N. unfold h2. apply upd_other; [apply gn_lt1|]. intros x Hx E. apply N. rewrite <- E. apply in_map; auto. Qed.
  Lemma r2_at n a : In (n, a) gn -> hread h2 a = dset String.eqb (hread h1 a) "label" (label_text n).
  Proof. intros I. unfold h2. pose proof (upd_at (fun na : label * nat => snd na) (fun na d => dset String.eqb d "label" (label_text (fst na))) gn h1 (n, a)) as U. cbn [fst snd] in U. apply U; auto; [apply gn_nodup|apply gn_lt1]. Qed.
  Lemma r1_old a : a < m -> hread h1 a = hread h a. Proof. intros L. unfold h1. apply hread_app_l. auto. Qed.
  Lemma r1_new a : hread h1 (m + a) = hread h a.
  Proof. unfold h1, hread. rewrite app_nth2 by (unfold m; lia). f_equal. unfold m. lia. Qed.

  Lemma r2_old a : a < m -> hread h2 a = hread h a.
  Proof. intros L. rewrite r2_other; [apply r1_old; auto|]. intros I. apply gn_addr in I. lia. Qed.

  Lemma r4_low a : a < m + m -> hread h4 a = hread h2 a.
  Proof. intros L. unfold h4. rewrite hread_hset_other; [|rewrite len2, len3; lia|rewrite len2; lia]. unfold h3. apply hread_app_l. rewrite len2. auto. Qed.
  Lemma r4_at : hread h4 (List.length h2) = dupdate String.eqb (hread h ns) all_node.
  Proof. unfold h4. rewrite hread_hset_same by (rewrite len2, len3; lia). unfold h3. rewrite hread_app_at. rewrite r2_old by auto. auto. Qed.

  Lemma r5_at a : In a (map snd gn) -> hread h5 a = dupdate String.eqb (hread h2 a) (dupdate String.eqb (hread h ns) all_node).
  Proof.
    intros I. unfold h5. destruct (set_all_spec (map snd gn) (hread h4 (List.length h2)) h4 gn_nodup gn_lt4) as (_ & S & _). rewrite S, r4_at, r4_low; auto. apply gn_addr in I. lia.
  Qed.
  Lemma r5_other a : a < m + m -> ~ In a (map snd gn) -> hread h5 a = hread h1 a.
  Proof.
    intros L I. unfold h5. destruct (set_all_spec (map snd gn) (hread h4 (List.length h2)) h4 gn_nodup gn_lt4) as (_ & _ & S). rewrite S, r4_low, r2_other; auto.
  Qed.
  Lemma r5_old a : a < m -> hread h5 a = hread h a.
  Proof. intros L. rewrite r5_other; [apply r1_old; auto|lia|]. intros I. apply gn_addr in I. lia. Qed.

  Lemma r7_low a : a < m + m -> hread h7 a = hread h5 a.
  Proof. intros L. unfold h7. rewrite hread_hset_other; [|rewrite len5, len6; lia|rewrite len5; lia]. unfold h6. apply hread_app_l. rewrite len5. lia. Qed.
  Lemma r7_at : hread h7 (List.length h5) = dupdate String.eqb (hread h es) all_edge.
  Proof. unfold h7. rewrite hread_hset_same by (rewrite len5, len6; lia). unfold h6. rewrite hread_app_at. rewrite r5_old by auto. auto. Qed.

  Lemma r8_at a : In a (map snd ge) -> hread h8 a = dupdate String.eqb (hread h1 a) (dupdate String.eqb (hread h es) all_edge).
  Proof.
    intros I. unfold h8. destruct (set_all_spec (map snd ge) (hread h7 (List.length h5)) h7 ge_nodup ge_lt7) as (_ & S & _). pose proof (ge_addr _ I). rewrite S, r7_at, r7_low, r5_other; auto; try lia. intros J. eapply g_disj; eauto.
  Qed.
  Lemma r8_other a : a < m + m -> ~ In a (map snd ge) -> hread h8 a = hread h5 a.
  Proof. intros L I. unfold h8. destruct (set_all_spec (map snd ge) (hread h7 (List.length h5)) h7 ge_nodup ge_lt7) as (_ & _ & S). rewrite S, r7_low; auto. Qed.

  Lemma s9 : List.length h9 = m + m + 2 /\
    (forall k a, In (k, a) gn -> hread h9 a = match dget label_eqb node k with Some d => dupdate String.eqb (hread h8 a) d | None => hread h8 a end) /\
    (forall a, ~ In a (map snd gn) -> hread h9 a = hread h8 a).
  Proof.
    unfold h9. destruct (set_specific_spec label_eqb label_eqb_spec gn node h8) as (A & B & C); auto; [rewrite gn_names; apply (sep_nodes _ _ SEP)|apply gn_nodup|apply gn_lt8|]. rewrite len8 in A. auto.
  Qed.
  Lemma s10 : List.length h10 = m + m + 2 /\
    (forall k a, In (k, a) ge -> hread h10 a = match dget edge_eqb edge k with Some d => dupdate String.eqb (hread h9 a) d | None => hread h9 a end) /\
    (forall a, ~ In a (map snd ge) -> hread h10 a = hread h9 a).
  Proof.
    destruct s9 as (L9 & _). unfold h10. destruct (set_specific_spec edge_eqb edge_eqb_spec ge edge h9) as (A & B & C); auto; [rewrite ge_names; apply (sep_edges _ _ SEP)|apply ge_nodup| |].
    - intros x H. apply (in_map snd) in H. apply ge_addr in H. rewrite L9. lia.
    - rewrite L9 in A. auto.
  Qed.

  Lemma old_kept : firstn m h10 = h.
  Proof.
    destruct s10 as (L & _ & O10). destruct s9 as (_ & _ & O9). unfold m. apply firstn_hread; [fold m; lia|]. intros a Ha. fold m in Ha.
    assert (~ In a (map snd gn)) by (intros I; apply gn_addr in I; lia). assert (~ In a (map snd ge)) by (intros I; apply ge_addr in I; lia).
    rewrite O10, O9, r8_other, r5_old; auto. lia.
  Qed.

  Lemma node_final n a0 : In (n, a0) (pg_nodes sm) -> forall k,
    attr (hread h10 (m + a0)) k = first_of [attr_of label_eqb node n k; attr all_node k; attr (hread h ns) k; (if String.eqb k "label" then Some (label_text n) else None); attr (hread h a0) k].
  Proof.
    intros I k. assert (G : In (n, m + a0) gn) by (apply gn_in; eauto). assert (GA : In (m + a0) (map snd gn)) by (apply in_map_iff; exists (n, m + a0); auto).
    assert (NE : ~ In (m + a0) (map snd ge)) by (intros J; eapply g_disj; eauto). pose proof (gn_addr _ GA) as B.
    destruct s10 as (_ & _ & O10). destruct s9 as (_ & A9 & _). rewrite O10 by auto. rewrite (A9 n) by auto. rewrite r8_other by (auto; lia). rewrite r5_at by auto. rewrite (r2_at n) by auto. rewrite r1_new.
    assert (Base : attr (dupdate String.eqb (dset String.eqb (hread h a0) "label" (label_text n)) (dupdate String.eqb (hread h ns) all_node)) k =
      first_of [attr all_node k; attr (hread h ns) k; (if String.eqb k "label" then Some (label_text n) else None); attr (hread h a0) k]).
    { rewrite attr_dupdate by (apply dupdate_NoDup; [apply String.eqb_spec|auto]). rewrite attr_dupdate by auto. cbn [first_of].
      destruct (attr all_node k); auto. destruct (attr (hread h ns) k); auto. rewrite attr_dset. destruct (String.eqb k "label"); auto. destruct (attr (hread h a0) k); auto. }
    unfold attr_of. destruct (dget label_eqb node n) as [d|] eqn:E.
    - rewrite attr_dupdate by (eapply Nnv; eapply (dget_In label_eqb label_eqb_spec); eauto). cbn [first_of]. destruct (attr d k); auto.
    - exact Base.
  Qed.

  Lemma edge_final e a0 : In (e, a0) (pg_edges sm) -> forall k,
    attr (hread h10 (m + a0)) k = first_of [attr_of edge_eqb edge e k; attr all_edge k; attr (hread h es) k; attr (hread h a0) k].
  Proof.
    intros I k. assert (G : In (e, m + a0) ge) by (apply ge_in; eauto). assert (GA : In (m + a0) (map snd ge)) by (apply in_map_iff; exists (e, m + a0); auto).
    assert (NN : ~ In (m + a0) (map snd gn)) by (intros J; eapply g_disj; eauto).
    destruct s10 as (_ & A10 & _). destruct s9 as (_ & _ & O9). rewrite (A10 e) by auto. rewrite O9 by auto. rewrite r8_at by auto. rewrite r1_new.
    assert (Base : attr (dupdate String.eqb (hread h a0) (dupdate String.eqb (hread h es) all_edge)) k = first_of [attr all_edge k; attr (hread h es) k; attr (hread h a0) k]).
    { rewrite attr_dupdate by (apply dupdate_NoDup; [apply String.eqb_spec|auto]). rewrite attr_dupdate by auto. cbn [first_of]. destruct (attr all_edge k); auto. destruct (attr (hread h es) k); auto. destruct (attr (hread h a0) k); auto. }
    unfold attr_of. destruct (dget edge_eqb edge e) as [d|] eqn:E.
    - rewrite attr_dupdate by (eapply Nev; eapply (dget_In edge_eqb edge_eqb_spec); eauto). cbn [first_of]. destruct (attr d k); auto.
    - exact Base.
  Qed.
End Main.

Theorem attributes_precedence ns es h sm all_node all_edge node edge :
  separate h sm -> ns < List.length h -> es < List.length h ->
  (forall d, In d ([hread h ns; hread h es; all_node; all_edge] ++ map snd node ++ map snd edge) -> NoDup (map fst d)) -> NoDup (map fst node) -> NoDup (map fst edge) ->
  exists h' g, add_attributes ns es h sm all_node all_edge node edge = (h', g) /\
    firstn (List.length h) h' = h /\
    map fst (pg_nodes g) = map fst (pg_nodes sm) /\ map fst (pg_edges g) = map fst (pg_edges sm) /\
    (forall a, In a (map snd (pg_nodes g) ++ map snd (pg_edges g)) -> List.length h <= a) /\
    (forall n a0 a k, In (n, a0) (pg_nodes sm) -> In (n, a) (pg_nodes g) ->
       attr (hread h' a) k = first_of [attr_of label_eqb node n k; attr all_node k; attr (hread h ns) k; (if String.eqb k "label" then Some (label_text n) else None); attr (hread h a0) k]) /\
    (forall e a0 a k, In (e, a0) (pg_edges sm) -> In (e, a) (pg_edges g) ->
       attr (hread h' a) k = first_of [attr_of edge_eqb edge e k; attr all_edge k; attr (hread h es) k; attr (hread h a0) k]).
Proof.
  intros SEP Hns Hes Hd Nn Ne. eexists _, _. split; [apply unfold_add|].
  assert (D1 : NoDup (map fst (hread h ns))) by (apply Hd; cbn; auto). assert (D2 : NoDup (map fst (hread h es))) by (apply Hd; cbn; auto).
  assert (D3 : NoDup (map fst all_node)) by (apply Hd; cbn; auto). assert (D4 : NoDup (map fst all_edge)) by (apply Hd; cbn; auto).
  assert (D5 : forall x d, In (x, d) node -> NoDup (map fst d)) by (intros x d I; apply Hd; apply in_or_app; right; apply in_or_app; left; apply in_map_iff; exists (x, d); auto).
  assert (D6 : forall x d, In (x, d) edge -> NoDup (map fst d)) by (intros x d I; apply Hd; apply in_or_app; right; apply in_or_app; right; apply in_map_iff; exists (x, d); auto).
  split; [apply old_kept; auto|]. cbn [pg_nodes pg_edges]. split; [apply gn_names|]. split; [apply ge_names|]. split; [|split].
  - intros a I. apply in_app_or in I as [I|I]; [eapply (gn_addr ns es) in I; eauto; lia|eapply (ge_addr ns es) in I; eauto; lia].
  - intros n a0 a k I J. apply gn_in in J as (a1 & J & ->).
    assert (a1 = a0). { pose proof (In_dget label_eqb label_eqb_spec _ _ _ (sep_nodes _ _ SEP) I) as Q. rewrite (In_dget label_eqb label_eqb_spec _ _ _ (sep_nodes _ _ SEP) J) in Q. congruence. }
    subst a1. apply node_final; auto.
  - intros e a0 a k I J. apply ge_in in J as (a1 & J & ->).
    assert (a1 = a0). { pose proof (In_dget edge_eqb edge_eqb_spec _ _ _ (sep_edges _ _ SEP) I) as Q. rewrite (In_dget edge_eqb edge_eqb_spec _ _ _ (sep_edges _ _ SEP) J) in Q. congruence. }
    subst a1. apply edge_final; auto.
Qed.
