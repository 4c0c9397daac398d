(** * NetMarkov: the fitted network reproduces all frequencies exactly if the data have the independences
      of the structure. *)
From Coq Require Import List Bool Arith ZArith Lia String QArith Qcanon Permutation Relations.
From Verif Require Import Base QcX Digraph BbnModel SumOver SmModel SmProofs SmHist SmThms NetModel NetProofs NetFit NetThms NetBridge NetEquiv NetMoral.
From Verif Require Kruskal InferModel InferSpec InferProofs InferEngine InferOps InferMain InferThms CausalThms MarkovEq InferWit.
Import ListNotations.
Local Open Scope list_scope.

(** ** Specification *)

(** [order] lists the nodes, each after its parents. *)
Definition parents_first (g : graph) (order : list string) : Prop :=
  NoDup order /\ (forall x, In x order <-> In (LStr x) (nodes g)) /\
  forall pre v post p, order = pre ++ v :: post -> In (LStr p, LStr v) (edges g) -> In p pre.

(** In the data every node is independent of the nodes before it, given its parents:
    #(v, before) #(parents) = #(v, parents) #(before). *)
Definition independent_given_parents (g : graph) (d : df) (order : list string) : Prop :=
  forall pre v post ps (f : string -> label), order = pre ++ v :: post -> NoDup ps ->
    (forall p, In p ps <-> In (LStr p, LStr v) (edges g)) ->
    (occurrences_with (d_rows d) v (f v) pre (map f pre) * occurrences (d_rows d) ps (map f ps) =
     occurrences_with (d_rows d) v (f v) ps (map f ps) * occurrences (d_rows d) pre (map f pre))%nat.

(** Every answer is the relative frequency among the rows that match the observations. *)
Definition answers_frequencies (g : graph) (d : df) (e : InferModel.eng) : Prop :=
  forall sc obs v s, Kruskal.good_sched sc -> NoDup (v :: map fst obs) ->
    (forall u x, In (u, x) ((v, s) :: obs) -> In (LStr u) (nodes g) /\ exists row, In row (d_rows d) /\ at_col row u = Some x) ->
    occurrences (d_rows d) (map fst obs) (map snd obs) <> 0%nat ->
    exists r, InferModel.engine_query sc e obs = Ok r /\
      InferEngine.answer r v s = Some (Qc_of_nat (occurrences_with (d_rows d) v s (map fst obs) (map snd obs)) /
                                       Qc_of_nat (occurrences (d_rows d) (map fst obs) (map snd obs)))%Qc.

(** ** Proofs *)
Lemma rows_pos (d : df) : d_rows d <> [] -> Qc_of_nat (List.length (d_rows d)) <> 0%Qc.
Proof. intros H. apply Qc_of_nat_pos. destruct (d_rows d); [congruence|cbn; lia]. Qed.

Section Markov.
  Import InferSpec InferEngine InferMain CausalThms.
  Local Open Scope Qc_scope.
  Context (S : list (string * list label)) (b : bn) (d : df) (prior : option string) (ess : option Qc).
  Let M := "MaximumLikelihoodEstimator"%string.
  Let N := learned S b d M prior ess.
  Context (NO : net_ok b) (SO : shape_ok N) (CS : columns_sum_1 N).
  Context (US : filter (usable (declared S) (b_nodes b)) (d_rows d) = d_rows d) (NR : d_rows d <> []).
  Let Fa := faithful S b d prior ess.

  (** What comes before [v] and contains its parents. *)
  Definition before (v : string) (pre : list string) : Prop :=
    NoDup (v :: pre) /\ incl pre (b_nodes b) /\ incl (ssort (get_parents b v)) pre /\
    forall x, In x pre -> ~ path (b_edges b) v x.

  Lemma path_arrows x y : path (parent_arrows N) x y -> path (b_edges b) x y.
  Proof. apply path_mono. intros [u v] H. apply (arrow_edge S b d prior ess NO SO US). auto. Qed.

  Lemma step v pre f : In v (b_nodes b) -> before v pre -> proper S b f ->
    Pr_and N (given f pre) v (f v) = Pr N (observed (given f pre)) *
      frequency MLE (declared S) (d_rows d) v (ssort (get_parents b v)) (f v) (map f (ssort (get_parents b v))).
  Proof.
    intros Hv (ND & IP & Pa & Ds) Pf. destruct (N_In S b d prior ess US v Hv) as (c & I & Es & Ep & Et).
    set (ps := ssort (get_parents b v)) in *. inversion ND as [|? ? Nv NDp]; subst.
    assert (Fst : map fst (given f pre) = pre) by (unfold given; rewrite map_map, map_id; auto).
    rewrite (markov_mass N v c (given f pre) SO CS I).
    - rewrite Et, Ep.
      replace (map (value_in (given f pre)) ps) with (map f ps) by (apply map_ext_in; intros p Hp; rewrite (value_given f pre); auto).
      auto.
    - split; [rewrite Fst; auto|]. intros u x H. apply in_map_iff in H as (p & [= <- <-] & Hp). split; [apply (N_vars S b d prior ess); auto|].
      unfold N, M. rewrite (N_states S b d prior ess SO US); auto.
    - rewrite Ep, Fst. exact Pa.
    - rewrite Fst. intros x Hx. split; [intros ->; auto|]. intros P. apply (Ds x Hx). apply path_arrows. auto.
    - rewrite Es. auto.
  Qed.

  Lemma observed_cons f v C : Pr N (observed (given f (v :: C))) = Pr_and N (given f C) v (f v).
  Proof. unfold Pr_and. apply Pr_ext. intros w _. cbn [given map observed forallb fst snd]. rewrite andb_comm. auto. Qed.

  Lemma frequency_agree f v P : frequency MLE (declared S) (d_rows d) v P (f v) (map f P) =
    if (agree (d_rows d) f P =? 0)%nat then 1 / Qc_of_nat (List.length (declared S v))
    else Qc_of_nat (agree (d_rows d) f (v :: P)) / Qc_of_nat (agree (d_rows d) f P).
  Proof. unfold frequency. rewrite occ_agree, occw_agree. auto. Qed.

  (** If the counts factorise, faithfulness extends to [v]. *)
  Lemma extend v pre : In v (b_nodes b) -> before v pre -> Fa pre ->
    (forall f, (agree (d_rows d) f (v :: pre) * agree (d_rows d) f (ssort (get_parents b v)) =
                agree (d_rows d) f (v :: ssort (get_parents b v)) * agree (d_rows d) f pre)%nat) -> Fa (v :: pre).
  Proof.
    intros Hv B F Ind f Pf. fold M N. rewrite observed_cons, (step v pre f Hv B Pf). specialize (F f Pf). fold M N in F. rewrite F, frequency_agree.
    destruct B as (_ & _ & Pa & _). specialize (Ind f). set (ps := ssort (get_parents b v)) in *.
    pose proof (agree_sub (d_rows d) f ps pre Pa) as L1. pose proof (agree_sub (d_rows d) f pre (v :: pre) (fun x H => or_intror H)) as L2.
    destruct (Nat.eqb_spec (agree (d_rows d) f ps) 0) as [Z|Z].
    - replace (agree (d_rows d) f (v :: pre)) with 0%nat by lia. replace (agree (d_rows d) f pre) with 0%nat by lia.
      rewrite Qc_of_nat_0. unfold Qcdiv. ring.
    - pose proof (Qc_of_nat_pos (agree (d_rows d) f ps) ltac:(lia)) as Zp. pose proof (rows_pos d NR).
      apply (f_equal Qc_of_nat) in Ind. rewrite !Qc_of_nat_mul in Ind.
      replace (Qc_of_nat (agree (d_rows d) f (v :: pre))) with
        (Qc_of_nat (agree (d_rows d) f (v :: pre)) * Qc_of_nat (agree (d_rows d) f ps) / Qc_of_nat (agree (d_rows d) f ps)) by (field; auto).
      rewrite Ind. field. auto.
  Qed.

  (** And conversely. *)
  Lemma retract v pre f : In v (b_nodes b) -> before v pre -> Fa pre -> Fa (v :: pre) -> proper S b f ->
    (agree (d_rows d) f (v :: pre) * agree (d_rows d) f (ssort (get_parents b v)) =
     agree (d_rows d) f (v :: ssort (get_parents b v)) * agree (d_rows d) f pre)%nat.
  Proof.
    intros Hv B F0 F1 Pf. specialize (F1 f Pf). specialize (F0 f Pf). fold M N in F0, F1.
    rewrite observed_cons, (step v pre f Hv B Pf), F0, frequency_agree in F1.
    destruct B as (_ & _ & Pa & _). set (ps := ssort (get_parents b v)) in *.
    pose proof (agree_sub (d_rows d) f ps pre Pa) as L1. pose proof (agree_sub (d_rows d) f pre (v :: pre) (fun x H => or_intror H)) as L2.
    destruct (Nat.eqb_spec (agree (d_rows d) f ps) 0) as [Z|Z]; [rewrite Z in *; replace (agree (d_rows d) f pre) with 0%nat by lia; lia|].
    pose proof (Qc_of_nat_pos (agree (d_rows d) f ps) ltac:(lia)) as Zp. pose proof (rows_pos d NR) as Zn.
    apply Qc_of_nat_inj. rewrite !Qc_of_nat_mul.
    assert (E : Qc_of_nat (agree (d_rows d) f (v :: pre)) =
      Qc_of_nat (agree (d_rows d) f pre) * (Qc_of_nat (agree (d_rows d) f (v :: ps)) / Qc_of_nat (agree (d_rows d) f ps))).
    { transitivity (Qc_of_nat (agree (d_rows d) f (v :: pre)) / Qc_of_nat (List.length (d_rows d)) * Qc_of_nat (List.length (d_rows d))); [field; auto|].
      rewrite <- F1. field. auto. }
    rewrite E. field. auto.
  Qed.
End Markov.

(** ** Through the API *)
Lemma agree_same rows f C D : incl C D -> incl D C -> agree rows f C = agree rows f D.
Proof. intros I J. apply Nat.le_antisymm; apply agree_sub; auto. Qed.

Lemma agree_unseen rows f C u : In u C -> (forall r, In r rows -> at_col r u <> Some (f u)) -> agree rows f C = 0%nat.
Proof.
  intros Hu H. unfold agree. rewrite (filter_ext_in _ (fun _ => false)).
  - clear H. induction rows; auto.
  - intros r Hr. apply not_true_is_false. intros Q. rewrite forallb_forall in Q. specialize (Q u Hu). unfold holds in Q.
    specialize (H r Hr). destruct (at_col r u) as [x|]; [|discriminate]. destruct (label_eqb_spec x (f u)) as [->|]; [|discriminate]. congruence.
Qed.

Theorem markov_exactly g d prior ess order : reached g -> named g ->
  acyclic (edges g) -> all_linked g -> edges g <> [] ->
  (forall x, In (LStr x) (nodes g) -> In x (d_cols d) /\ InferModel.is_identifier x = true /\ x <> "self"%string) ->
  complete d -> parents_first g order ->
  exists e, trained g d "MaximumLikelihoodEstimator" prior ess e /\
    (independent_given_parents g d order <-> answers_frequencies g d e).
Proof.
  intros R N AC AL NE Names CD (NDo & Ino & Pfst).
  assert (SW : sound_way "MaximumLikelihoodEstimator" prior ess) by (left; auto).
  destruct (data_to_net g d _ prior ess R N AC AL NE Names CD SW)
    as (b0 & b1 & b2 & S & fs & e & E0 & E1 & ES & E2 & Ec & Ee & (NO & SO & CS) & HE & HN & HS & HU & HQ).
  exists e. split; [exists b0, b1, b2, fs; auto|].
  assert (NR : d_rows d <> []) by apply CD.
  set (Nw := learned S b2 d "MaximumLikelihoodEstimator" prior ess) in *.
  set (Fa := faithful S b2 d prior ess).
  assert (Pe : forall p v, In p (ssort (get_parents b2 v)) <-> In (LStr p, LStr v) (edges g)).
  { intros p v. rewrite <- HE, <- get_parents_In. split; apply Permutation_in; [|symmetry]; apply ssort_Perm. }
  assert (Cols : forall v, In v (b_nodes b2) -> In v (d_cols d)) by (intros v Hv; apply (Names v), HN; auto).
  assert (Onode : forall pre v post, order = pre ++ v :: post -> In v (b_nodes b2) /\ incl pre (b_nodes b2)).
  { intros pre v post E. split; [|intros x Hx]; apply HN, Ino; rewrite E; apply in_or_app; [right; left|left]; auto. }
  (* a descendant comes later *)
  assert (Later : forall x y, path (b_edges b2) x y -> forall p1 p2, order = p1 ++ y :: p2 -> In x p1).
  { intros x y P. induction P as [x y H|x y z H P IH]; intros p1 p2 E.
    - apply (Pfst p1 y p2); auto. apply HE. auto.
    - assert (Hy := IH p1 p2 E). apply in_split in Hy as (q1 & q2 & ->). rewrite <- app_assoc in E. cbn in E.
      apply in_or_app. left. apply (Pfst q1 y (q2 ++ z :: p2)); auto. apply HE. auto. }
  assert (Bef : forall pre v post, order = pre ++ v :: post -> before b2 v pre).
  { intros pre v post E. destruct (Onode pre v post E) as [Hv Ip]. rewrite E in NDo. split; [|split; [|split]]; auto.
    - constructor; [intros H; apply NoDup_remove_2 in NDo; apply NDo, in_or_app; auto|]. clear -NDo. induction pre as [|x pre IH]; [constructor|].
      cbn in NDo. inversion NDo as [|? ? A B]; subst. constructor; auto. intros H. apply A, in_or_app. auto.
    - intros p Hp. apply (Pfst pre v post p E). apply Pe. auto.
    - intros x Hx P. apply in_split in Hx as (q1 & q2 & ->). rewrite <- app_assoc in E. cbn in E.
      assert (H := Later v x P q1 (q2 ++ v :: post) E). rewrite <- app_assoc in NDo. cbn in NDo.
      apply in_split in H as (a1 & a2 & ->). rewrite <- app_assoc in NDo. cbn in NDo. apply NoDup_remove_2 in NDo.
      apply NDo, in_or_app. right. apply in_or_app. right. right. apply in_or_app. right. left. auto. }
  assert (Counts : forall f pre v post ps, order = pre ++ v :: post -> NoDup ps -> (forall p, In p ps <-> In (LStr p, LStr v) (edges g)) ->
    agree (d_rows d) f ps = agree (d_rows d) f (ssort (get_parents b2 v)) /\
    agree (d_rows d) f (v :: ps) = agree (d_rows d) f (v :: ssort (get_parents b2 v))).
  { intros f pre v post ps _ _ H. assert (A : incl ps (ssort (get_parents b2 v))) by (intros p Hp; apply Pe, H; auto).
    assert (B : incl (ssort (get_parents b2 v)) ps) by (intros p Hp; apply H, Pe; auto).
    split; apply agree_same; auto; intros x [->|Hx]; [left|right|left|right]; auto. }
  split.
  - (* the independences give all frequencies *)
    intros Ind.
    assert (All : forall pre post, order = pre ++ post -> Fa pre).
    { intros pre. induction pre as [|v pre IH] using rev_ind; intros post E.
      - apply (faithful_nil S b2 d prior ess SO CS); auto.
      - rewrite <- app_assoc in E. cbn in E. apply (faithful_perm S b2 d prior ess (v :: pre)); [apply Permutation_cons_append|].
        destruct (Onode pre v post E) as [Hv Ip].
        apply (extend S b2 d prior ess NO SO CS HU NR v pre); auto; [apply (Bef pre v post E)|apply (IH (v :: post) E)|].
        intros f. pose proof (Ind pre v post (ssort (get_parents b2 v)) f E) as I. rewrite !occ_agree, !occw_agree in I.
        apply I; [|intros p; apply Pe]. apply ssort_NoDup, get_parents_NoDup, NO. }
    specialize (All order [] (eq_sym (app_nil_r _))).
    intros sc obs v s G ND HO Occ.
    assert (Seen : forall u x, In (u, x) ((v, s) :: obs) -> In u (b_nodes b2) /\ In x (declared S u)).
    { intros u x H. destruct (HO u x H) as [H1 H2]. split; [apply HN; auto|]. apply HS; auto. apply (Names u H1). }
    inversion ND as [|? ? Nv ND1]; subst.
    destruct (HQ sc obs G ND1) as (r & Eq & _ & Ans); [intros u x H; apply Seen; right; auto|].
    exists r. split; auto. destruct (Seen v s (or_introl eq_refl)) as [Iv Is]. rewrite Ans by auto. f_equal.
    set (C := map fst obs) in *.
    set (f := fun u => match dget String.eqb ((v, s) :: obs) u with Some x => x | None => hd (LInt 0) (declared S u) end).
    assert (Fv : f v = s) by (unfold f; cbn; rewrite String.eqb_refl; auto).
    assert (Fo : forall u x, In (u, x) obs -> f u = x).
    { intros u x H. unfold f. rewrite (In_dget _ String.eqb_spec ((v, s) :: obs) u x); auto. right; auto. }
    assert (Gv : given f C = obs).
    { unfold given, C. rewrite map_map. rewrite <- (map_id obs) at 2. apply map_ext_in. intros [u x] H. cbn. rewrite (Fo u x H). auto. }
    assert (Ms : map f C = map snd obs).
    { unfold C. rewrite map_map. apply map_ext_in. intros [u x] H. cbn. apply Fo; auto. }
    assert (Pf : proper S b2 f).
    { intros u Hu. unfold f. destruct (dget String.eqb ((v, s) :: obs) u) as [x|] eqn:E.
      - apply (dget_In _ String.eqb_spec) in E. apply Seen; auto.
      - pose proof (N_In S b2 d prior ess HU u Hu) as (c & Ic & Ec' & _). destruct (InferSpec.ok_states _ SO u c Ic) as [Z _]. rewrite Ec' in Z.
        destruct (declared S u); [congruence|left; auto]. }
    assert (F1 : Fa (v :: C)).
    { apply (faithful_sub S b2 d prior ess SO HU _ order); auto.
      - intros x Hx. apply HN, Ino. auto.
      - intros x Hx. apply Ino, HN. destruct Hx as [<-|H]; auto. unfold C in H. apply in_map_iff in H as ([u y] & <- & H). apply (Seen u y). right; auto. }
    assert (F0 : Fa C) by (apply (faithful_drop S b2 d prior ess SO HU v); auto).
    specialize (F1 f Pf). specialize (F0 f Pf). fold Nw in F0, F1. rewrite Gv in F0.
    rewrite <- Ms in *. rewrite occ_agree in *. rewrite <- Fv at 2. rewrite occw_agree.
    pose proof (rows_pos d NR) as Nz.
    assert (Az : Qc_of_nat (agree (d_rows d) f C) <> 0%Qc) by (apply Qc_of_nat_pos; lia).
    unfold Nw in F1. rewrite (observed_cons S b2 d prior ess) in F1. fold Nw in F1. rewrite Gv, Fv in F1.
    unfold InferMain.cond_prob. rewrite F0, F1. destruct (Qc_eq_bool_spec (Qc_of_nat (agree (d_rows d) f C) / Qc_of_nat (List.length (d_rows d))) 0) as [Z|_].
    + exfalso. apply Az. rewrite <- (Qcmult_0_l (Qc_of_nat (List.length (d_rows d)))), <- Z. field. auto.
    + field. auto.
  - (* and the other way round *)
    intros AF.
    assert (SeenP : forall f u, proper S b2 f -> In u (b_nodes b2) -> In (LStr u) (nodes g) /\ exists row, In row (d_rows d) /\ at_col row u = Some (f u)).
    { intros f u Pf Hu. split; [apply HN; auto|]. apply HS; auto. }
    assert (All : forall C, NoDup C -> incl C (b_nodes b2) -> Fa C).
    { induction C as [|v C IH]; intros ND I; [apply (faithful_nil S b2 d prior ess SO CS); auto|].
      inversion ND as [|? ? Nv NDC]; subst. assert (F := IH NDC (fun x Hx => I x (or_intror Hx))). intros f Pf.
      specialize (F f Pf). fold Nw in F. rewrite (observed_cons S b2 d prior ess). fold Nw.
      pose proof (rows_pos d NR) as Nz. pose proof (agree_sub (d_rows d) f C (v :: C) (fun x H => or_intror H)) as Le.
      destruct (Nat.eq_dec (agree (d_rows d) f C) 0) as [Z|Z].
      - rewrite Z in *. replace (agree (d_rows d) f (v :: C)) with 0%nat by lia. rewrite Qc_of_nat_0 in *.
        replace (0 / Qc_of_nat (List.length (d_rows d)))%Qc with 0%Qc in * by (unfold Qcdiv; ring). apply InferMain.Pr_and_zero; auto.
      - set (obs := given f C) in *.
        assert (Fst : map fst obs = C) by (unfold obs, given; rewrite map_map, map_id; auto).
        assert (Snd : map snd obs = map f C) by (unfold obs, given; rewrite map_map; auto).
        assert (HO : forall u x, In (u, x) ((v, f v) :: obs) -> In u (b_nodes b2) /\ x = f u).
        { intros u x [[= <- <-]|H]; [split; auto; apply I; left; auto|]. apply in_map_iff in H as (p & [= <- <-] & Hp). split; auto. apply I. right; auto. }
        destruct (AF InferWit.ids obs v (f v)) as (r & Eq & A).
        { apply InferWit.ids_good. }
        { rewrite Fst. auto. }
        { intros u x H. destruct (HO u x H) as [Hu ->]. apply SeenP; auto. }
        { rewrite Fst, Snd, occ_agree. auto. }
        rewrite Fst, Snd, occ_agree, occw_agree in A.
        destruct (HQ InferWit.ids obs) as (r' & Eq' & _ & Ans).
        { apply InferWit.ids_good. }
        { rewrite Fst. auto. }
        { intros u x H. destruct (HO u x (or_intror H)) as [Hu ->]. split; auto. }
        rewrite Eq in Eq'. injection Eq' as <-. destruct (HO v (f v) (or_introl eq_refl)) as [Hv _].
        rewrite (Ans v (f v) Hv (Pf v Hv)) in A. injection A as A. fold Nw in A.
        unfold InferMain.cond_prob in A. rewrite F in A.
        pose proof (Qc_of_nat_pos (agree (d_rows d) f C) ltac:(lia)) as Zc.
        destruct (Qc_eq_bool_spec (Qc_of_nat (agree (d_rows d) f C) / Qc_of_nat (List.length (d_rows d))) 0) as [Z0|_].
        { exfalso. apply Zc. rewrite <- (Qcmult_0_l (Qc_of_nat (List.length (d_rows d)))), <- Z0. field. auto. }
        transitivity (InferSpec.Pr_and Nw obs v (f v) / (Qc_of_nat (agree (d_rows d) f C) / Qc_of_nat (List.length (d_rows d))) *
                      (Qc_of_nat (agree (d_rows d) f C) / Qc_of_nat (List.length (d_rows d))))%Qc; [field; auto|].
        rewrite A. field. auto. }
    intros pre v post ps f E NDp HP. rewrite !occ_agree, !occw_agree.
    destruct (Counts f pre v post ps E NDp HP) as [-> ->]. destruct (Onode pre v post E) as [Hv Ip].
    assert (B := Bef pre v post E).
    destruct (forallb (fun u => lmem (f u) (declared S u)) (v :: pre)) eqn:Q.
    + rewrite forallb_forall in Q.
      assert (Dec : forall u, In u (v :: pre) -> In (f u) (declared S u)) by (intros u Hu; apply lmem_In, Q; auto).
      set (f' := fun u => if lmem (f u) (declared S u) then f u else hd (LInt 0) (declared S u)).
      assert (Pf : proper S b2 f').
      { intros u Hu. unfold f'. destruct (lmem (f u) (declared S u)) eqn:L; [apply lmem_In; auto|].
        pose proof (N_In S b2 d prior ess HU u Hu) as (c & Ic & Ec' & _). destruct (InferSpec.ok_states _ SO u c Ic) as [Z _]. rewrite Ec' in Z.
        destruct (declared S u); [congruence|left; auto]. }
      assert (Same : forall u, In u (v :: pre) -> f u = f' u) by (intros u Hu; unfold f'; rewrite (Q u Hu); auto).
      assert (Pa : incl (ssort (get_parents b2 v)) pre) by apply B.
      rewrite !(agree_ext (d_rows d) f f') by (intros u Hu; apply Same; cbn in *; intuition auto).
      apply (retract S b2 d prior ess NO SO CS HU NR); auto; apply All; auto.
      * destruct B as (B & _). inversion B; auto.
      * apply B.
      * intros x [<-|Hx]; auto.
    + apply not_true_iff_false in Q. assert (X : exists u, In u (v :: pre) /\ lmem (f u) (declared S u) = false).
      { clear -Q. induction (v :: pre) as [|x l IH]; [destruct Q; auto|]. cbn in Q. destruct (lmem (f x) (declared S x)) eqn:L; [|exists x; cbn; auto].
        destruct IH as (u & Hu & L'); [intros H; apply Q; rewrite H; auto|]. exists u. cbn. auto. }
      destruct X as (u & Hu & L). assert (Un : forall r, In r (d_rows d) -> at_col r u <> Some (f u)).
      { intros r Hr H. assert (In (f u) (declared S u)).
        { apply HS; [|eauto]. apply Cols. destruct Hu as [<-|Hu]; auto. }
        apply lmem_In in H0. congruence. }
      rewrite (agree_unseen (d_rows d) f (v :: pre) u Hu Un). cbn [Nat.mul].
      destruct Hu as [<-|Hu]; [rewrite (agree_unseen (d_rows d) f (v :: ssort (get_parents b2 v)) v (or_introl eq_refl) Un); auto|].
      rewrite (agree_unseen (d_rows d) f pre u Hu Un). lia.
Qed.
