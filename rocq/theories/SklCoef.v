(** * SklCoef: what get_edges_to_node returns. *)
From Coq Require Import List Bool Arith ZArith Lia String QArith Qcanon.
From Verif Require Import Base Names Digraph SmModel SmProofs QcX NetModel NotearsModel TorchModel SklModel.
Import ListNotations.
Local Open Scope string_scope.
Local Open Scope list_scope.
Local Open Scope nat_scope.

Local Notation lspec := label_eqb_spec.

(** ** Specification *)

(** The number stored under [data] for the edge from [u] to [v]; 0 if there is no such edge. *)
Definition edge_number (g : graph) (data : string) (u v : label) : Qc :=
  match edge_attrs g u v with
  | Some a => match dget String.eqb a data with Some (ANum q) => q | _ => 0%Qc end
  | None => 0%Qc
  end.

(** ** Proof *)
Definition val_of (data : string) (a : attrs) : option Qc := match dget String.eqb a data with Some (ANum q) => Some q | _ => None end.
Definition or_zero (x : option Qc) : Qc := match x with Some q => q | None => 0%Qc end.

Lemma lmem_iff x l : lmem x l = true <-> In x l.
Proof.
  unfold lmem, memb. rewrite existsb_exists. split.
  - intros (y & Hy & E). destruct (lspec x y); [subst; auto|discriminate].
  - intros H. exists x. split; auto. destruct (lspec x x); auto.
Qed.

Section Series.
  Context (features : list label) (name : label) (data : string).

  Definition into (u : label) (e : label * label * attrs) : bool := label_eqb (fst (fst e)) u && label_eqb (snd (fst e)) name.
  Definition lookup (L : list (label * label * attrs)) (f : label) : option Qc :=
    match find (into f) L with Some e => val_of data (snd e) | None => None end.
  Definition extra (L : list (label * label * attrs)) : list (label * option Qc) :=
    flat_map (fun e => if label_eqb (snd (fst e)) name && negb (lmem (fst (fst e)) features) then [(fst (fst e), val_of data (snd e))] else []) L.
  Definition state (L : list (label * label * attrs)) : list (label * option Qc) := map (fun f => (f, lookup L f)) features ++ extra L.

  Definition set_step (s : list (label * option Qc)) (uva : label * label * attrs) : res (list (label * option Qc)) :=
    if label_eqb (snd (fst uva)) name then series_set s (fst (fst uva)) (val_of data (snd uva)) else Ok s.

  Lemma find_app_one L e f : find (into f) (L ++ [e]) = match find (into f) L with Some x => Some x | None => if into f e then Some e else None end.
  Proof. induction L as [|x L IH]; cbn [app find]; [destruct (into f e); auto|]. destruct (into f x); auto. Qed.

  Lemma find_none_into L f : ~ In (f, name) (map fst L) -> find (into f) L = None.
  Proof.
    intros H. induction L as [|[[u v] a] L IH]; auto. cbn [find]. change (into f (u, v, a)) with (label_eqb u f && label_eqb v name). cbn [map fst In] in H. destruct (lspec u f) as [->|]; cbn [andb]; [|apply IH; tauto].
    destruct (lspec v name) as [->|]; [tauto|]. apply IH. tauto.
  Qed.

  Lemma extra_keys L u : In u (map fst (extra L)) -> ~ In u features /\ In (u, name) (map fst L).
  Proof.
    intros H. apply in_map_iff in H. destruct H as ([u' x] & <- & H). apply in_flat_map in H. destruct H as ([[u2 v] a] & Hi & H). cbn [fst snd] in H.
    destruct (lspec v name) as [->|]; cbn [andb] in H; [|destruct H]. destruct (lmem u2 features) eqn:E; cbn [negb] in H; [destruct H|].
    destruct H as [[= <- <-]|[]]. cbn [fst]. split; [|apply in_map_iff; exists (u2, name, a); auto]. intros I. apply lmem_iff in I. congruence.
  Qed.

  Lemma state_keys L : map fst (state L) = features ++ map fst (extra L).
  Proof. unfold state. rewrite map_app, map_map. cbn [fst]. rewrite map_id. auto. Qed.

  Lemma step_state L e : ~ In (fst e) (map fst L) ->
    (snd (fst e) = name -> In (fst (fst e)) features \/ exists s, fst (fst e) = LStr s) -> set_step (state L) e = Ok (state (L ++ [e])).
  Proof.
    destruct e as [[u v] a]. cbn [fst snd]. intros N S. unfold set_step. cbn [fst snd]. destruct (lspec v name) as [->|Nv].
    - specialize (S eq_refl). unfold series_set. rewrite state_keys. destruct (lmem u (features ++ map fst (extra L))) eqn:Em.
      + apply lmem_iff in Em. apply in_app_iff in Em. assert (Iu : In u features) by (destruct Em as [Em|Em]; auto; apply extra_keys in Em; tauto).
        f_equal. unfold state. rewrite map_app. f_equal.
        * rewrite map_map. apply map_ext. intros f. cbn [fst snd]. unfold lookup. rewrite find_app_one. destruct (lspec f u) as [->|Nf].
          -- rewrite find_none_into by auto. unfold into. cbn [fst snd]. destruct (lspec u u); [|congruence]. destruct (lspec name name); [|congruence]. cbn [andb snd]. auto.
          -- f_equal. destruct (find (into f) L) eqn:E; auto. unfold into. cbn [fst snd]. destruct (lspec u f); [congruence|]. auto.
        * unfold extra. rewrite flat_map_app. cbn [flat_map fst snd]. fold (extra L). assert (M : lmem u features = true) by (apply lmem_iff; auto). rewrite M, andb_false_r. cbn [app]. rewrite app_nil_r.
          transitivity (map (fun x => x) (extra L)); [|apply map_id]. apply map_ext_in. intros [k x] Hk. cbn [fst]. destruct (lspec k u) as [->|]; auto. exfalso.
          destruct (extra_keys L u); [apply in_map_iff; exists (u, x); auto|]. auto.
      + assert (Nu : ~ In u (features ++ map fst (extra L))) by (rewrite <- lmem_iff; congruence). rewrite in_app_iff in Nu.
        destruct S as [S|(s & ->)]; [tauto|]. f_equal. unfold state. rewrite <- app_assoc. f_equal.
        * apply map_ext_in. intros f Hf. unfold lookup. rewrite find_app_one. destruct (find (into f) L); auto. unfold into. cbn [fst snd]. destruct (lspec (LStr s) f); [subst; tauto|auto].
        * unfold extra. rewrite flat_map_app. cbn [flat_map fst snd]. destruct (lspec name name); [|congruence]. destruct (lmem (LStr s) features) eqn:E; [apply lmem_iff in E; tauto|].
          cbn [andb negb app]. reflexivity.
    - f_equal. unfold state. f_equal.
      + apply map_ext. intros f. unfold lookup. rewrite find_app_one. destruct (find (into f) L); auto. unfold into. cbn [fst snd]. destruct (lspec v name); [congruence|]. rewrite andb_false_r. auto.
      + unfold extra. rewrite flat_map_app. cbn [flat_map fst snd]. destruct (lspec v name); [congruence|]. cbn [andb app]. rewrite app_nil_r. auto.
  Qed.

  Lemma fold_state L2 : forall L1, NoDup (map fst (L1 ++ L2)) ->
    (forall u v a, In (u, v, a) L2 -> v = name -> In u features \/ exists s, u = LStr s) -> foldM set_step L2 (state L1) = Ok (state (L1 ++ L2)).
  Proof.
    induction L2 as [|e L2 IH]; intros L1 N S; [rewrite app_nil_r; auto|]. cbn [foldM]. rewrite step_state.
    - cbn [bind]. rewrite IH.
      + rewrite <- app_assoc. auto.
      + rewrite <- app_assoc. auto.
      + intros. eapply S; eauto. right. eauto.
    - rewrite map_app in N. cbn [map] in N. apply NoDup_remove_2 in N. rewrite in_app_iff in N. tauto.
    - destruct e as [[u v] a]. cbn [fst snd]. intros E. eapply S; [left; reflexivity|auto].
  Qed.
End Series.

(** The numbers of the features in their order, then those of other nodes with an edge into [name]. *)
Theorem edges_to_node e gr features t name data : e_graph e = Some gr -> e_names e = Some (features, t) -> wf (g_edges gr) ->
  (forall u, In (u, name) (edges (g_edges gr)) -> In u features \/ exists s, u = LStr s) ->
  exists more, get_edges_to_node e name data = Ok (map (fun f => (f, edge_number (g_edges gr) data f name)) features ++ more) /\
    NoDup (map fst more) /\
    (forall u, In u (map fst more) <-> ~ In u features /\ In (u, name) (edges (g_edges gr))) /\
    (forall u q, In (u, q) more -> q = edge_number (g_edges gr) data u name).
Proof.
  intros Eg En W S. unfold get_edges_to_node. rewrite Eg, En. set (L := edges_data (g_edges gr)).
  assert (NL : NoDup (map fst L)) by (apply edges_NoDup; auto).
  change (foldM _ L (map (fun f => (f, None)) features)) with (foldM (set_step name data) L (map (fun f => (f, None)) features)).
  assert (E0 : map (fun f => (f, None)) features = state features name data []) by (unfold state, extra; cbn; rewrite app_nil_r; auto).
  rewrite E0, (fold_state features name data L []); [|auto|].
  2:{ intros u v a I ->. apply S. apply in_map_iff. exists (u, name, a). auto. }
  cbn [bind app]. set (f := fun kv : label * option Qc => (fst kv, match snd kv with Some q => q | None => 0%Qc end)).
  exists (map f (extra features name data L)). unfold state. rewrite map_app. split; [|split; [|split]].
  - f_equal. f_equal. rewrite map_map. apply map_ext. intros u. unfold f. cbn [fst snd]. f_equal. unfold lookup, edge_number.
    destruct (find (into name u) L) as [[[u' v'] a]|] eqn:E.
    + apply find_some in E. destruct E as [I E]. unfold into in E. cbn [fst snd] in E. apply andb_true_iff in E. destruct E as [E1 E2].
      destruct (lspec u' u); [|discriminate]. destruct (lspec v' name); [|discriminate]. subst. apply edges_data_In in I; auto. rewrite I. cbn [snd]. unfold val_of.
      destruct (dget String.eqb a data) as [[]|]; auto.
    + destruct (edge_attrs (g_edges gr) u name) as [a|] eqn:Ea; auto. exfalso. apply edges_data_In in Ea; auto. apply (find_none _ _ E) in Ea. unfold into in Ea. cbn [fst snd] in Ea.
      destruct (lspec u u); [|congruence]. destruct (lspec name name); [|congruence]. discriminate.
  - rewrite map_map. assert (Q : map (fun x => fst (f x)) (extra features name data L) = map fst (extra features name data L)) by (apply map_ext; auto). rewrite Q.
    clear - NL. induction L as [|[[u v] a] L IH]; [constructor|]. cbn [map fst] in NL. apply NoDup_cons_iff in NL. destruct NL as [Nu NL]. unfold extra. cbn [flat_map]. fold (extra features name data L).
    cbn [fst snd]. destruct (lspec v name) as [->|]; cbn [andb app]; auto. destruct (lmem u features); cbn [negb app map fst]; auto. constructor; auto.
    intros I. apply extra_keys in I. tauto.
  - intros u. rewrite map_map. split.
    + intros I. apply extra_keys in I. auto.
    + intros [N I]. apply in_map_iff in I. destruct I as ([[u' v'] a] & [= -> ->] & I). apply in_map_iff. exists (u, val_of data a). split; auto.
      apply in_flat_map. exists (u, name, a). split; auto. cbn [fst snd]. destruct (lspec name name); [|congruence]. destruct (lmem u features) eqn:E; [apply lmem_iff in E; tauto|]. left. auto.
  - intros u q I. apply in_map_iff in I. destruct I as ([u' x] & [= -> <-] & I). apply in_flat_map in I. destruct I as ([[u2 v] a] & I & H). cbn [fst snd] in H.
    destruct (lspec v name) as [->|]; cbn [andb] in H; [|destruct H]. destruct (negb (lmem u2 features)); [|destruct H]. destruct H as [[= -> <-]|[]].
    apply edges_data_In in I; auto. unfold edge_number. rewrite I. unfold val_of. destruct (dget String.eqb a data) as [[]|]; auto.
Qed.
