(** * NetConsist: the answers of fitted networks approach the population they were sampled from. *)
From Coq Require Import List Bool Arith ZArith Lia String QArith Qcanon Permutation Relations Reals Lra.
From Verif Require Import Base QcX Digraph BbnModel SumOver SmModel SmProofs SmHist SmThms NetModel NetProofs NetFit NetThms NetBridge NetEquiv NetMoral NetMarkov.
From Verif Require Kruskal InferModel InferSpec InferProofs InferEngine InferOps InferMain InferThms CausalThms CausalDo CausalApi.
From Verif Require Import AcycLink OrdProofs FitBound ConsistLim ConsistNet EffectNet.
Import ListNotations.
Local Open Scope list_scope.
Local Open Scope R_scope.

(** ** Specification *)

(** A population: kinds of individuals (a value for each attribute) and the weight of each kind. *)
Definition population := list ((string -> label) * R).
Definition total (l : list R) : R := fold_right Rplus 0 l.
Definition shows (f : string -> label) (A : list (string * label)) : bool := forallb (fun ux => label_eqb (f (fst ux)) (snd ux)) A.
(** The share of the population that shows all the values [A]. *)
Definition share (P : population) (A : list (string * label)) : R := total (map snd (filter (fun i => shows (fst i) A) P)).
Definition weighted (P : population) : Prop := (forall f w, In (f, w) P -> 0 <= w) /\ total (map snd P) = 1.

(** The share of the rows that show all the values [A]. *)
Definition rows_share (d : df) (A : list (string * label)) : R :=
  INR (List.length (filter (fun r => forallb (fun ux => holds r (fst ux) (snd ux)) A) (d_rows d))) / INR (List.length (d_rows d)).

Definition parents_are (g : graph) (v : string) (ps : list string) : Prop :=
  NoDup ps /\ forall p, In p ps <-> In (LStr p, LStr v) (edges g).

(** In the population every node is independent of the nodes before it, given its parents. *)
Definition structured (g : graph) (P : population) (order : list string) : Prop :=
  forall pre v post ps f, order = pre ++ v :: post -> parents_are g v ps ->
    share P (given f (v :: pre)) * share P (given f ps) = share P (given f (v :: ps)) * share P (given f pre).

(** The data are within [delta] of the population, as far as a node and its parents are concerned. *)
Definition near (g : graph) (P : population) (d : df) (delta : R) : Prop :=
  forall v ps f, In (LStr v) (nodes g) -> parents_are g v ps ->
    Rabs (rows_share d (given f ps) - share P (given f ps)) <= delta /\
    Rabs (rows_share d (given f (v :: ps)) - share P (given f (v :: ps))) <= delta.

(** All values come from [dom]. *)
Definition values_in (g : graph) (dom : string -> list label) (P : population) : Prop :=
  forall f w v, In (f, w) P -> In (LStr v) (nodes g) -> In (f v) (dom v).
Definition data_in (g : graph) (dom : string -> list label) (d : df) : Prop :=
  (forall x, In (LStr x) (nodes g) -> In x (d_cols d)) /\
  forall r v x, In r (d_rows d) -> In (LStr v) (nodes g) -> at_col r v = Some x -> In x (dom v).

(** The population after the attribute [v], whose causes are [ps], is set at random with the probabilities [q],
    whatever its causes are: each individual counts as many times more as its value of [v] has become more frequent
    among the individuals with the same causes. *)
Definition intervened (P : population) (v : string) (q : label -> Qc) (ps : list string) : population :=
  map (fun i => (fst i, snd i * (realq (q (fst i v)) * share P (given (fst i) ps) / share P (given (fst i) (v :: ps))))) P.

(** What the second argument of do_intervention asks for: all weight on an integer, or the weights of a dictionary. *)
Definition asks (arg : InferModel.ivarg) (q : label -> Qc) : Prop :=
  match arg with
  | InferModel.IvInt z => forall y, q y = if label_eqb y (LInt z) then 1%Qc else 0%Qc
  | InferModel.IvDict dd => forall y p, In (y, p) dd -> q y = p
  | InferModel.IvOther => False
  end.

(** ** Shares *)
Lemma total_filter_le {A} (h : A -> R) p q l : (forall a, In a l -> 0 <= h a) -> (forall a, In a l -> p a = true -> q a = true) ->
  0 <= total (map h (filter p l)) <= total (map h (filter q l)).
Proof.
  unfold total. induction l as [|a l IH]; intros Pos I; cbn; [lra|].
  assert (J := IH (fun x Hx => Pos x (or_intror Hx)) (fun x Hx => I x (or_intror Hx))). assert (Pa := Pos a (or_introl eq_refl)). assert (Ia := I a (or_introl eq_refl)).
  destruct (p a); [rewrite Ia by auto; cbn; lra|]. destruct (q a); cbn; lra.
Qed.

Lemma total_add {A} (a b : A -> R) l : total (map (fun s => a s + b s) l) = total (map a l) + total (map b l).
Proof. unfold total. induction l as [|x l IH]; cbn; [ring|]. rewrite IH. ring. Qed.

Section Shares.
  Context (P : population) (WP : weighted P).
  Lemma wpos : forall i, In i P -> 0 <= snd i.
  Proof. intros [f w] H. apply (proj1 WP f w H). Qed.
  Lemma share_mono A B : (forall f, shows f A = true -> shows f B = true) -> 0 <= share P A <= share P B.
  Proof. intros H. apply total_filter_le; [apply wpos|auto]. Qed.
  Lemma share_nonneg A : 0 <= share P A.
  Proof. apply (share_mono A A). auto. Qed.
  Lemma share_nil : share P [] = 1.
  Proof. unfold share. cbn. rewrite filter_all by auto. apply WP. Qed.
  Lemma share_ext A B : (forall f, shows f A = shows f B) -> share P A = share P B.
  Proof. intros H. unfold share. f_equal. f_equal. apply filter_ext. auto. Qed.
  Lemma shows_given f h C : shows f (given h C) = true <-> forall u, In u C -> f u = h u.
  Proof.
    unfold shows, given. rewrite forallb_forall. split.
    - intros H u Hu. specialize (H (u, h u) (in_map _ _ _ Hu)). cbn in H. destruct (label_eqb_spec (f u) (h u)); congruence.
    - intros H ux Hx. apply in_map_iff in Hx as (u & <- & Hu). cbn. rewrite (H u Hu). destruct (label_eqb_spec (h u) (h u)); congruence.
  Qed.
  Lemma share_sub h C D : incl C D -> share P (given h D) <= share P (given h C).
  Proof. intros I. apply share_mono. intros f. rewrite !shows_given. auto. Qed.
  Lemma share_same h C D : incl C D -> incl D C -> share P (given h C) = share P (given h D).
  Proof. intros I J. apply Rle_antisym; apply share_sub; auto. Qed.
  Lemma share_pos_ex A : 0 < share P A -> exists f w, In (f, w) P /\ 0 < w /\ shows f A = true.
  Proof.
    unfold share, total. pose proof wpos as W. revert W. clear WP. induction P as [|[f w] l IH]; intros W H; cbn in H; [lra|].
    destruct (shows f A) eqn:S.
    - destruct (Rlt_dec 0 w) as [Hw|Hw]; [exists f, w; cbn; auto|]. cbn in H.
      destruct IH as (f' & w' & I & R); [intros i Hi; apply W; right; auto|specialize (W (f, w) (or_introl eq_refl)); cbn in W; lra|]. exists f', w'. split; [right; auto|auto].
    - destruct IH as (f' & w' & I & R); [intros i Hi; apply W; right; auto|auto|]. exists f', w'. split; [right; auto|auto].
  Qed.
  Lemma share_individual f w A : In (f, w) P -> 0 < w -> shows f A = true -> 0 < share P A.
  Proof.
    intros I Hw S. unfold share, total. pose proof wpos as W. revert I W. clear WP. induction P as [|i l IH]; intros I W; [destruct I|]. cbn.
    assert (Wl : forall j, In j l -> 0 <= snd j) by (intros; apply W; right; auto).
    assert (Nn : 0 <= fold_right Rplus 0 (map snd (filter (fun i => shows (fst i) A) l))).
    { clear -Wl. induction l as [|j l IH]; cbn; [lra|]. assert (Hl := IH (fun k Hk => Wl k (or_intror Hk))). specialize (Wl j (or_introl eq_refl)). destruct (shows (fst j) A); cbn; lra. }
    destruct I as [->|I].
    - cbn [fst]. rewrite S. cbn. lra.
    - specialize (IH I Wl). specialize (W i (or_introl eq_refl)). destruct (shows (fst i) A); cbn; lra.
  Qed.

  Lemma share_drop f v C dom : ~ In v C -> NoDup dom -> (forall i w, In (i, w) P -> In (i v) dom) ->
    share P (given f C) = total (map (fun s => share P (given (set_to f v s) (v :: C))) dom).
  Proof.
    intros Nv ND Hd. unfold share. clear WP. induction P as [|[i w] l IH].
    - unfold total. cbn. clear. induction dom; cbn; lra.
    - assert (IHl := IH (fun j x Hj => Hd j x (or_intror Hj))). clear IH. cbn [filter fst].
      assert (E : forall s, shows i (given (set_to f v s) (v :: C)) = (label_eqb (i v) s && shows i (given f C))%bool).
      { intros s. cbn. rewrite set_same. f_equal. fold (given (set_to f v s) C). rewrite (given_ext _ f C); auto. intros u Hu. apply set_other. intros ->. auto. }
      assert (Hi := Hd i w (or_introl eq_refl)). clear Hd.
      rewrite (map_ext _ (fun s => (if (label_eqb (i v) s && shows i (given f C))%bool then w else 0) + total (map snd (filter (fun j => shows (fst j) (given (set_to f v s) (v :: C))) l)))).
      2:{ intros s. rewrite E. destruct (_ && _)%bool; unfold total; cbn; ring. }
      transitivity (total (map (fun s => if (label_eqb (i v) s && shows i (given f C))%bool then w else 0) dom) + total (map snd (filter (fun j => shows (fst j) (given f C)) l))).
      + replace (total (map (fun s => if (label_eqb (i v) s && shows i (given f C))%bool then w else 0) dom)) with (if shows i (given f C) then w else 0).
        { destruct (shows i (given f C)); unfold total; cbn; ring. }
        clear -ND Hi. destruct (shows i (given f C)).
        * induction dom as [|x dom IHd]; [destruct Hi|]. cbn. inversion ND as [|? ? Nx ND']; subst. destruct (label_eqb_spec (i v) x) as [<-|Ne]; cbn.
          -- replace (total _) with 0; [unfold total; ring|]. clear -Nx. induction dom as [|y dom IHd]; cbn; auto. destruct (label_eqb_spec (i v) y) as [<-|]; [destruct Nx; left; auto|]. cbn.
             unfold total in *. cbn. rewrite <- IHd; [ring|]. intros H. apply Nx. right. auto.
          -- unfold total in *. cbn. rewrite <- IHd; auto; [ring|]. destruct Hi; [congruence|auto].
        * clear. unfold total. induction dom as [|x dom IHd]; cbn; auto. rewrite <- IHd, andb_false_r. ring.
      + rewrite IHl, <- total_add. auto.
  Qed.
End Shares.

Lemma rows_share_agree d f U : rows_share d (given f U) = INR (agree (d_rows d) f U) / INR (List.length (d_rows d)).
Proof.
  unfold rows_share, agree, given. do 3 f_equal. apply filter_ext. intros r. induction U as [|u U IH]; cbn; auto. rewrite IH. auto.
Qed.

Lemma realq_nat n : realq (Qc_of_nat n) = INR n.
Proof. unfold realq, Qc_of_nat. cbn [this Q2Qc]. rewrite (Qreals.Qeq_eqR _ _ (Qred_correct _)). unfold Q2R. cbn. rewrite Rinv_1, Rmult_1_r. symmetry. apply INR_IZR_INZ. Qed.

Lemma realq_sum {A} (h : A -> Qc) l : realq (Qsum h l) = total (map (fun a => realq (h a)) l).
Proof. unfold total. induction l as [|a l IH]; [apply realq_0|]. rewrite Qsum_cons, realq_plus, IH. auto. Qed.

Lemma realq_eq0 q : realq q = 0 -> q = 0%Qc.
Proof. intros H. apply realq_inj. rewrite realq_0. auto. Qed.

Lemma parents_exist g v : named g -> exists ps, parents_are g v ps.
Proof.
  intros Nm. exists (nodup string_dec (flat_map (fun e => match e with (LStr p, LStr u) => if String.eqb u v then [p] else [] | _ => [] end) (edges g))).
  split; [apply NoDup_nodup|]. intros p. rewrite nodup_In, in_flat_map. split.
  - intros ([x y] & H & K). destruct x as [|x], y as [|y]; try destruct K. destruct (String.eqb_spec y v) as [->|]; [|destruct K]. destruct K as [->|[]]. auto.
  - intros H. exists (LStr p, LStr v). split; auto. rewrite String.eqb_refl. left. auto.
Qed.

(** What the methods add to the counts is bounded. *)
Lemma added_bound method prior ess : sound_way method prior ess -> exists E, 0 <= E /\ forall n m, (0 < n)%nat -> (0 < m)%nat ->
  0 <= realq (added (asked_smoothing method prior ess n m)) <= E + INR n /\
  0 <= realq (Qc_of_nat n * added (asked_smoothing method prior ess n m)) <= E + INR n.
Proof.
  intros [->|[-> [->|[-> (e & -> & He)]]]]; unfold asked_smoothing; cbn [String.eqb Ascii.eqb Bool.eqb added].
  - exists 0. split; [lra|]. intros n m Hn Hm. rewrite Qcmult_0_r, realq_0. pose proof (pos_INR n). lra.
  - exists 1. split; [lra|]. intros n m Hn Hm. rewrite Qcmult_1_r, realq_1, realq_nat. pose proof (pos_INR n). lra.
  - pose proof (realq_nonneg e (Qclt_le_weak _ _ He)) as Pe. exists (realq e). split; auto. intros n m Hn Hm.
    apply lt_INR in Hn as Rn. apply lt_INR in Hm as Rm. cbn in Rn, Rm. apply (le_INR 1) in Hn as Rn'. apply (le_INR 1) in Hm as Rm'. cbn in Rn', Rm'.
    assert (Nz : Qc_of_nat (n * m) <> 0%Qc) by (apply Qc_of_nat_pos; nia).
    rewrite realq_mult, realq_div, !realq_nat, mult_INR by auto.
    assert (L : forall y, 1 <= y -> 0 <= realq e / y <= realq e).
    { intros y Hy. unfold Rdiv. split; [apply Rmult_le_pos; auto; left; apply Rinv_0_lt_compat; lra|].
      rewrite <- (Rmult_1_r (realq e)) at 2. apply Rmult_le_compat_l; auto. rewrite <- Rinv_1. apply Rinv_le_contravar; lra. }
    assert (1 <= INR n * INR m) by (rewrite <- (Rmult_1_r 1); apply Rmult_le_compat; lra).
    split; [specialize (L (INR n * INR m)); lra|]. replace (INR n * (realq e / (INR n * INR m))) with (realq e / INR m) by (field; lra).
    specialize (L (INR m)). lra.
Qed.

(** Conditional probabilities approach conditional shares if probabilities approach shares. *)
Lemma cond_limit (F : (df -> Prop) -> Prop) (FT : F (fun _ => True)) (FA : forall Q1 Q2, F Q1 -> F Q2 -> F (fun t => Q1 t /\ Q2 t))
    (FI : forall Q1 Q2 : df -> Prop, (forall t, Q1 t -> Q2 t) -> F Q1 -> F Q2) (M : df -> InferSpec.net) (P : population) (ok : string -> Prop) obs v s :
  (forall C, NoDup C -> (forall x, In x C -> ok x) -> forall f, tends F (fun d => realq (InferSpec.Pr (M d) (InferSpec.observed (given f C)))) (share P (given f C))) ->
  NoDup (map fst obs) -> (forall u x, In (u, x) obs -> ok u) -> ok v -> 0 < share P obs ->
  tends F (fun d => realq (InferMain.cond_prob (M d) obs v s)) (share P ((v, s) :: obs) / share P obs).
Proof.
  intros Lim ND HO Hv Pos. set (C := map fst obs) in *.
  set (f := fun u => match dget String.eqb obs u with Some x => x | None => s end).
  assert (Fo : forall u x, In (u, x) obs -> f u = x) by (intros u x H; unfold f; rewrite (In_dget _ String.eqb_spec obs u x); auto).
  assert (Gv : given f C = obs).
  { unfold given, C. rewrite map_map. rewrite <- (map_id obs) at 2. apply map_ext_in. intros [u x] H. cbn. rewrite (Fo u x H). auto. }
  assert (IC : forall x, In x C -> ok x) by (intros x Hx; unfold C in Hx; apply in_map_iff in Hx as ([u y] & <- & Hx); apply (HO u y); auto).
  pose proof (Lim C ND IC f) as L0. rewrite Gv in L0.
  assert (L1 : tends F (fun d => realq (InferSpec.Pr_and (M d) obs v s)) (share P ((v, s) :: obs))).
  { destruct (in_dec string_dec v C) as [I|I].
    - unfold C in I. apply in_map_iff in I as ([u x] & E & I). cbn in E. subst u.
      assert (K : forall w, InferSpec.observed obs w = true -> InferSpec.is_ v s w = label_eqb x s).
      { intros w H. unfold InferSpec.observed in H. rewrite forallb_forall in H. specialize (H (v, x) I). unfold InferSpec.is_ in *. cbn in H. destruct (label_eqb_spec (InferSpec.at_ w v) x); [congruence|discriminate]. }
      assert (K' : forall h, shows h obs = true -> label_eqb (h v) s = label_eqb x s).
      { intros h H. unfold shows in H. rewrite forallb_forall in H. specialize (H (v, x) I). cbn in H. destruct (label_eqb_spec (h v) x); [congruence|discriminate]. }
      destruct (label_eqb x s) eqn:Q.
      + rewrite (share_ext P ((v, s) :: obs) obs).
        2:{ intros h. change (shows h ((v, s) :: obs)) with (label_eqb (h v) s && shows h obs)%bool. destruct (shows h obs) eqn:Z; [|apply andb_false_r]. rewrite (K' h Z). auto. }
        eapply (tends_ext F FA FI); [|exact L0]. apply (F_all F FT FI). intros d. f_equal. unfold InferSpec.Pr_and. apply InferMain.Pr_ext.
        intros w _. destruct (InferSpec.observed obs w) eqn:Z; auto. cbn. rewrite K; auto.
      + replace (share P ((v, s) :: obs)) with 0.
        2:{ unfold share. rewrite (filter_ext _ (fun _ => false)); [clear; induction P; auto|]. intros [h w]. change (shows (fst (h, w)) ((v, s) :: obs)) with (label_eqb (h v) s && shows h obs)%bool. destruct (shows h obs) eqn:Z; [|apply andb_false_r]. rewrite (K' h Z). auto. }
        apply (tends_ext F FA FI (fun _ => 0)); [|apply (tends_const F FT FI)]. apply (F_all F FT FI). intros d.
        replace (InferSpec.Pr_and (M d) obs v s) with 0%Qc; [rewrite realq_0; auto|]. unfold InferSpec.Pr_and, InferSpec.Pr. rewrite (filter_ext _ (fun _ => false)).
        * clear. induction (InferSpec.all_worlds (M d)); auto.
        * intros w. destruct (InferSpec.observed obs w) eqn:Z; auto. cbn. apply K; auto.
    - set (h := set_to f v s).
      assert (Gh : given h C = obs) by (rewrite <- Gv; apply given_ext; intros u Hu; apply set_other; intros ->; auto).
      assert (Gc : given h (v :: C) = (v, s) :: obs) by (cbn; rewrite <- Gh; unfold h; rewrite set_same; auto).
      assert (T := Lim (v :: C) ltac:(constructor; auto) ltac:(intros x [<-|Hx]; auto) h). rewrite Gc in T.
      eapply (tends_ext F FA FI); [|exact T]. apply (F_all F FT FI). intros d. cbn beta. f_equal.
      rewrite <- Gc, obs_cons. rewrite Gh. unfold h. rewrite set_same. auto. }
  assert (Nz : share P obs <> 0) by lra.
  eapply (tends_ext F FA FI); [|apply (tends_div F FA FI _ _ _ _ Nz L1 L0)].
  refine (FI _ _ _ (tends_pos F FI _ _ Pos L0)). intros d Hp. unfold InferMain.cond_prob.
  destruct (Qc_eq_bool_spec (InferSpec.Pr (M d) (InferSpec.observed obs)) 0) as [Z|Z]; [rewrite Z, realq_0 in Hp; lra|]. rewrite realq_div; auto.
Qed.

Section Consist.
  Import InferSpec InferEngine InferMain.
  Context (g : graph) (method : string) (prior : option string) (ess : option Qc) (order : list string) (P : population) (dom : string -> list label) (b0 : bn).
  Context (Rg : reached g) (Nm : named g) (AC : acyclic (edges g)) (AL : all_linked g) (NE : edges g <> []).
  Context (Ids : forall x, In (LStr x) (nodes g) -> InferModel.is_identifier x = true /\ x <> "self"%string).
  Context (SW : sound_way method prior ess) (PF : parents_first g order) (WP : weighted P) (ST : structured g P order) (VI : values_in g dom P).
  Context (E0 : bn_init g = Ok b0).

  Let fine d := complete d /\ data_in g dom d.
  Let many d (delta : R) := method = "MaximumLikelihoodEstimator"%string \/ 1 <= delta * INR (List.length (d_rows d)).
  Let F (Q : df -> Prop) : Prop := exists delta, 0 < delta /\ forall d, fine d -> near g P d delta -> many d delta -> Q d.

  Lemma near_le d a c : a <= c -> near g P d a -> near g P d c.
  Proof. intros L H v ps f Hv Hp. destruct (H v ps f Hv Hp). split; lra. Qed.
  Lemma many_le d a c : a <= c -> many d a -> many d c.
  Proof. intros L [H|H]; [left; auto|right]. apply Rle_trans with (a * INR (List.length (d_rows d))); auto. apply Rmult_le_compat_r; auto. apply pos_INR. Qed.
  Lemma F_T : F (fun _ => True).
  Proof. exists 1. split; [lra|auto]. Qed.
  Lemma F_A Q1 Q2 : F Q1 -> F Q2 -> F (fun t => Q1 t /\ Q2 t).
  Proof.
    intros (a & Ha & A) (c & Hc & C). exists (Rmin a c). split; [apply Rmin_glb_lt; auto|]. pose proof (Rmin_l a c). pose proof (Rmin_r a c).
    intros d H1 H2 H3. split; [apply A|apply C]; auto; solve [eapply near_le; eauto|eapply many_le; eauto].
  Qed.
  Lemma F_I (Q1 Q2 : df -> Prop) : (forall t, Q1 t -> Q2 t) -> F Q1 -> F Q2.
  Proof. intros H (a & Ha & A). exists a. split; auto. Qed.
  Lemma F_fine : F fine.
  Proof. exists 1. split; [lra|auto]. Qed.
  Lemma F_fine_only (Q : df -> Prop) : (forall d, fine d -> Q d) -> F Q.
  Proof. intros H. apply (F_I fine); auto. apply F_fine. Qed.

  (** The fitted network as a function of the data. *)
  Let bf d := fst (fit_cpds (fst (fit_node_states b0 d)) d method prior ess).
  Let Sf d := match node_states (bf d) with Ok St => St | Err _ => [] end.
  Let Nf d := learned (Sf d) (bf d) d method prior ess.

  Lemma facts d : fine d ->
    (exists e, trained g d method prior ess e /\ forall sc obs, Kruskal.good_sched sc -> NoDup (map fst obs) ->
        (forall v x, In (v, x) obs -> In v (b_nodes (bf d)) /\ In x (declared (Sf d) v)) ->
        exists r, InferModel.engine_query sc e obs = Ok r /\
          forall v s, In v (b_nodes (bf d)) -> In s (declared (Sf d) v) -> answer r v s = Some (cond_prob (Nf d) obs v s)) /\
    (net_ok (bf d) /\ shape_ok (Nf d) /\ columns_sum_1 (Nf d)) /\
    (forall x y, In (x, y) (b_edges (bf d)) <-> In (LStr x, LStr y) (edges g)) /\
    (forall x, In x (b_nodes (bf d)) <-> In (LStr x) (nodes g)) /\
    (forall v s, In (LStr v) (nodes g) -> In s (declared (Sf d) v) <-> exists r, In r (d_rows d) /\ at_col r v = Some s) /\
    filter (usable (declared (Sf d)) (b_nodes (bf d))) (d_rows d) = d_rows d.
  Proof.
    intros [CD [DC DI]].
    destruct (data_to_net g d method prior ess Rg Nm AC AL NE (fun x Hx => conj (DC x Hx) (Ids x Hx)) CD SW)
      as (b0' & b1 & b2 & S & fs & e & E0' & E1 & ES & E2 & Ec & Ee & HW & HE & HN & HS & HU & HQ).
    rewrite E0 in E0'. injection E0' as <-.
    assert (Eb : bf d = b2) by (unfold bf; rewrite E1; cbn [fst]; rewrite E2; auto).
    assert (Es : Sf d = S) by (unfold Sf; rewrite Eb, ES; auto). unfold Nf. rewrite Eb, Es.
    split; [|split; [|split; [|split; [|split]]]]; auto.
    exists e. split; [exists b0, b1, b2, fs; auto|]. intros sc obs G ND HO. destruct (HQ sc obs G ND HO) as (r & Er & _ & A). exists r. auto.
  Qed.

  Lemma rows_pos_R d : fine d -> 0 < INR (List.length (d_rows d)).
  Proof. intros [(_ & NR & _) _]. apply (lt_INR 0). destruct (d_rows d); [congruence|cbn; lia]. Qed.

  Lemma parents_same d v ps : fine d -> parents_are g v ps -> incl ps (ssort (get_parents (bf d) v)) /\ incl (ssort (get_parents (bf d) v)) ps.
  Proof.
    intros H [_ Hp]. destruct (facts d H) as (_ & _ & HE & _). split; intros p Hi.
    - apply Hp, HE, get_parents_In in Hi. apply (Permutation_in _ (Permutation_sym (ssort_Perm _))). auto.
    - apply (Permutation_in _ (ssort_Perm _)), get_parents_In in Hi. apply Hp, HE. auto.
  Qed.

  Lemma family v ps f : In (LStr v) (nodes g) -> parents_are g v ps ->
    tends F (fun d => rows_share d (given f ps)) (share P (given f ps)) /\ tends F (fun d => rows_share d (given f (v :: ps))) (share P (given f (v :: ps))).
  Proof.
    intros Hv Hp. split; intros eps He; (exists (eps / 2); split; [lra|]; intros d _ H _; destruct (H v ps f Hv Hp); lra).
  Qed.

  (** The smoothing disappears. *)
  Lemma vanishes (x : df -> R) B : 0 <= B -> (forall d, fine d -> 0 <= x d <= B) ->
    (method = "MaximumLikelihoodEstimator"%string -> forall d, x d = 0) -> tends F (fun d => x d / INR (List.length (d_rows d))) 0.
  Proof.
    intros HB Hx Hm eps He. exists (eps / (2 * (B + 1))). split; [apply Rdiv_lt_0_compat; lra|]. intros d Hd _ M.
    pose proof (rows_pos_R d Hd) as Pn. rewrite Rminus_0_r. destruct M as [M|M]; [rewrite (Hm M d); unfold Rdiv; rewrite Rmult_0_l, Rabs_R0; auto|].
    destruct (Hx d Hd) as [X0 X1]. set (n := INR (List.length (d_rows d))) in *.
    assert (Pi : 0 < / n) by (apply Rinv_0_lt_compat; auto).
    rewrite Rabs_pos_eq by (apply Rmult_le_pos; lra).
    assert (Li : / n <= eps / (2 * (B + 1))).
    { apply (Rmult_le_reg_r n); auto. rewrite Rinv_l by lra. auto. }
    unfold Rdiv at 1. apply Rle_lt_trans with (B * (eps / (2 * (B + 1)))); [apply Rmult_le_compat; lra|].
    apply Rlt_le_trans with ((B + 1) * (eps / (2 * (B + 1)))); [apply Rmult_lt_compat_r; [apply Rdiv_lt_0_compat; lra|lra]|].
    replace ((B + 1) * (eps / (2 * (B + 1)))) with (eps / 2) by (field; lra). lra.
  Qed.

  Let pr f C d := realq (Pr (Nf d) (observed (given f C))).

  Lemma pr_bounds f C D d : fine d -> incl C D -> 0 <= pr f D d <= pr f C d.
  Proof.
    intros Hd I. destruct (facts d Hd) as (_ & (_ & SO & CS) & _). unfold pr. split; [apply realq_nonneg, Pr_nonneg; auto|]. apply realq_le, Pr_mono; auto.
    intros w _ H. unfold observed in *. rewrite forallb_forall in *. intros ux Hx. apply H. unfold given in *. apply in_map_iff in Hx as (u & <- & Hu). apply in_map_iff. eauto.
  Qed.
  Lemma pr_same f C D d : fine d -> incl C D -> incl D C -> pr f C d = pr f D d.
  Proof. intros Hd I J. apply Rle_antisym; eapply pr_bounds; eauto. Qed.

  Lemma order_node pre v post : order = pre ++ v :: post -> In (LStr v) (nodes g) /\ forall x, In x pre -> In (LStr x) (nodes g).
  Proof. destruct PF as (_ & Io & _). intros E. split; [|intros x Hx]; apply Io; rewrite E; apply in_or_app; [right; left|left]; auto. Qed.

  Lemma bef d pre v post : fine d -> order = pre ++ v :: post -> before (bf d) v pre.
  Proof.
    intros Hd E. destruct (facts d Hd) as (_ & (NO & SO & CS) & HE & HN & _). destruct PF as (NDo & Ino & Pfst).
    destruct (order_node pre v post E) as [Hv Ip].
    assert (Later : forall x y, path (b_edges (bf d)) x y -> forall p1 p2, order = p1 ++ y :: p2 -> In x p1).
    { intros x y Q. induction Q as [x y H|x y z H Q IH]; intros p1 p2 E'.
      - apply (Pfst p1 y p2); auto. apply HE. auto.
      - assert (Hy := IH p1 p2 E'). apply in_split in Hy as (q1 & q2 & ->). rewrite <- app_assoc in E'. cbn in E'.
        apply in_or_app. left. apply (Pfst q1 y (q2 ++ z :: p2)); auto. apply HE. auto. }
    rewrite E in NDo. split; [|split; [|split]]; auto.
    - constructor; [intros H; apply NoDup_remove_2 in NDo; apply NDo, in_or_app; auto|]. clear -NDo. induction pre as [|x pre IH]; [constructor|].
      cbn in NDo. inversion NDo as [|? ? A B]; subst. constructor; auto. intros H. apply A, in_or_app. auto.
    - intros x Hx. apply HN. auto.
    - intros p Hp. apply (Pfst pre v post p E). apply HE, get_parents_In, (Permutation_in _ (ssort_Perm _)). auto.
    - intros x Hx Q. apply in_split in Hx as (q1 & q2 & ->). rewrite <- app_assoc in E. cbn in E.
      assert (H := Later v x Q q1 (q2 ++ v :: post) E). rewrite <- app_assoc in NDo. cbn in NDo.
      apply in_split in H as (a1 & a2 & ->). rewrite <- app_assoc in NDo. cbn in NDo. apply NoDup_remove_2 in NDo.
      apply NDo, in_or_app. right. apply in_or_app. right. right. apply in_or_app. right. left. auto.
  Qed.

  Let sm d v := asked_smoothing method prior ess (List.length (declared (Sf d) v)) (List.length (product (map (declared (Sf d)) (ssort (get_parents (bf d) v))))).

  Lemma tends_step pre v post : order = pre ++ v :: post -> (forall f, tends F (pr f pre) (share P (given f pre))) ->
    forall f, tends F (pr f (v :: pre)) (share P (given f (v :: pre))).
  Proof.
    intros E IH f. destruct (parents_exist g v Nm) as (ps & Hps). destruct (order_node pre v post E) as [Hv Ip].
    assert (Pp : incl ps pre) by (intros p Hp; destruct PF as (_ & _ & Q); apply (Q pre v post p E), Hps; auto).
    destruct (Req_dec (share P (given f pre)) 0) as [Z|Z].
    { assert (Zv : share P (given f (v :: pre)) = 0).
      { pose proof (share_sub P WP f pre (v :: pre) (fun x H => or_intror H)). pose proof (share_nonneg P WP (given f (v :: pre))). lra. }
      rewrite Zv. apply (tends_zero F F_A F_I _ (pr f pre)); [|rewrite <- Z; apply IH].
      apply F_fine_only. intros d Hd. apply pr_bounds; auto. intros x Hx. right. auto. }
    pose proof (share_nonneg P WP (given f pre)) as Nn. pose proof (share_sub P WP f ps pre Pp) as Le.
    assert (Pos : 0 < share P (given f ps)) by lra.
    destruct (family v ps f Hv Hps) as [L1 L2].
    destruct (added_bound method prior ess SW) as (B & HB & Bd).
    set (B' := B + INR (List.length (dom v))).
    assert (HB' : 0 <= B') by (unfold B'; pose proof (pos_INR (List.length (dom v))); lra).
    assert (Bounds : forall d, fine d -> 0 <= realq (added (sm d v)) <= B' /\ 0 <= realq (Qc_of_nat (List.length (declared (Sf d) v)) * added (sm d v)) <= B').
    { intros d Hd. destruct (facts d Hd) as (_ & (NO & SO & CS) & HE & HN & HS & HU).
      assert (Ne : forall u, In (LStr u) (nodes g) -> NoDup (declared (Sf d) u) /\ declared (Sf d) u <> []).
      { intros u Hu. apply (F_nodup (Sf d) (bf d) d method prior ess SO HU). apply HN. auto. }
      assert (L : (List.length (declared (Sf d) v) <= List.length (dom v))%nat).
      { apply NoDup_incl_length; [apply Ne; auto|]. intros s Hs. apply HS in Hs as (r & Hr & Es); auto. destruct Hd as [_ [_ DI]]. apply (DI r v); auto. }
      apply le_INR in L. assert (Np : (0 < List.length (declared (Sf d) v))%nat) by (destruct (Ne v Hv) as [_ X]; destruct (declared (Sf d) v); [congruence|cbn; lia]).
      assert (Mp : (0 < List.length (product (map (declared (Sf d)) (ssort (get_parents (bf d) v)))))%nat).
      { apply (cells_pos (declared (Sf d))). intros u Hu. apply Ne. apply HN. apply (no_touch _ NO). exists v. left.
        apply get_parents_In, (Permutation_in _ (ssort_Perm _)). auto. }
      destruct (Bd _ _ Np Mp). unfold sm, B'. lra. }
    assert (Mle : method = "MaximumLikelihoodEstimator"%string -> forall d, added (sm d v) = 0%Qc) by (intros M d; unfold sm, asked_smoothing; rewrite M; reflexivity).
    set (xs := fun d => realq (if lmem (f v) (declared (Sf d) v) then added (sm d v) else 0%Qc)).
    set (cs := fun d => realq (Qc_of_nat (List.length (declared (Sf d) v)) * added (sm d v))).
    assert (Vx : tends F (fun d => xs d / INR (List.length (d_rows d))) 0).
    { apply (vanishes xs B'); auto.
      - intros d Hd. unfold xs. destruct (lmem _ _); [apply Bounds; auto|rewrite realq_0; lra].
      - intros M d. unfold xs. destruct (lmem _ _); [rewrite Mle by auto|]; apply realq_0. }
    assert (Vc : tends F (fun d => cs d / INR (List.length (d_rows d))) 0).
    { apply (vanishes cs B'); auto.
      - intros d Hd. apply Bounds; auto.
      - intros M d. unfold cs. rewrite Mle, Qcmult_0_r by auto. apply realq_0. }
    set (q := fun d => (rows_share d (given f (v :: ps)) + xs d / INR (List.length (d_rows d))) / (rows_share d (given f ps) + cs d / INR (List.length (d_rows d)))).
    assert (Lq : tends F q (share P (given f (v :: ps)) / share P (given f ps))).
    { rewrite <- (Rplus_0_r (share P (given f (v :: ps)))), <- (Rplus_0_r (share P (given f ps))). unfold q.
      apply (tends_div F F_A F_I); [lra| |]; apply (tends_plus F F_A F_I); auto. }
    replace (share P (given f (v :: pre))) with (share P (given f pre) * (share P (given f (v :: ps)) / share P (given f ps))).
    2:{ pose proof (ST pre v post ps f E Hps) as I. apply (Rmult_eq_reg_r (share P (given f ps))); [|lra]. rewrite I. field. lra. }
    apply (tends_ext F F_A F_I (fun d => pr f pre d * q d)); [|apply (tends_mult F F_A F_I); auto].
    apply (F_two F F_A F_I _ _ _ F_fine (tends_pos F F_I _ _ Pos L1)). intros d Hd Pr0. symmetry.
    destruct (facts d Hd) as (_ & (NO & SO & CS) & HE & HN & HS & HU). pose proof (rows_pos_R d Hd) as Pn.
    destruct (parents_same d v ps Hd Hps) as [I1 I2].
    assert (A1 : agree (d_rows d) f (ssort (get_parents (bf d) v)) = agree (d_rows d) f ps) by (apply agree_same; auto).
    assert (A2 : agree (d_rows d) f (v :: ssort (get_parents (bf d) v)) = agree (d_rows d) f (v :: ps)) by (apply agree_same; intros x [->|Hx]; [left|right|left|right]; auto).
    rewrite rows_share_agree in Pr0.
    assert (An : agree (d_rows d) f ps <> 0%nat) by (intros X; rewrite X in Pr0; cbn in Pr0; unfold Rdiv in Pr0; rewrite Rmult_0_l in Pr0; lra).
    unfold pr at 1, Nf. rewrite (F_factor (Sf d) (bf d) d method prior ess NO SO CS HU v pre f); [|apply HN; auto|apply (bef d pre v post); auto|rewrite A1; auto].
    fold (sm d v). rewrite A1, A2, realq_mult. fold (Nf d). fold (pr f pre d). f_equal.
    unfold q. rewrite !rows_share_agree. destruct (Bounds d Hd) as [_ Bc]. fold (cs d) in Bc.
    assert (Ap : 0 < INR (agree (d_rows d) f ps)) by (apply (lt_INR 0); lia).
    rewrite realq_div, !realq_plus, !realq_nat.
    - fold (xs d). fold (cs d). field. lra.
    - intros X. apply (f_equal realq) in X. rewrite realq_plus, realq_nat, realq_0 in X. fold (cs d) in X. lra.
  Qed.

  Lemma tends_prefix pre : forall post, order = pre ++ post -> forall f, tends F (pr f pre) (share P (given f pre)).
  Proof.
    induction pre as [|v pre IH] using rev_ind; intros post E f.
    - cbn. rewrite (share_nil P WP). apply (tends_ext F F_A F_I (fun _ => 1)); [|apply (tends_const F F_T F_I)].
      apply F_fine_only. intros d Hd. destruct (facts d Hd) as (_ & (NO & SO & CS) & _). unfold pr. rewrite (F_nil (Sf d) (bf d) d method prior ess SO CS). rewrite realq_1. auto.
    - rewrite <- app_assoc in E. cbn in E.
      assert (I1 : incl (v :: pre) (pre ++ [v])) by (intros x [<-|H]; apply in_or_app; cbn; auto).
      assert (I2 : incl (pre ++ [v]) (v :: pre)) by (intros x H; apply in_app_or in H as [H|[<-|[]]]; cbn; auto).
      rewrite (share_same P WP f (pre ++ [v]) (v :: pre)) by auto.
      apply (tends_ext F F_A F_I (pr f (v :: pre))); [apply F_fine_only; intros d Hd; apply pr_same; auto|].
      apply (tends_step pre v post E). intros h. apply (IH (v :: post) E).
  Qed.

  Lemma tends_drop v C : In (LStr v) (nodes g) -> ~ In v C -> (forall f, tends F (pr f (v :: C)) (share P (given f (v :: C)))) ->
    forall f, tends F (pr f C) (share P (given f C)).
  Proof.
    intros Hv Nv H f.
    assert (Dec : forall x y : label, {x = y} + {x <> y}) by (intros x y; destruct (label_eqb_spec x y); auto).
    set (D := nodup Dec (dom v)). assert (ND : NoDup D) by apply NoDup_nodup.
    rewrite (share_drop P f v C D) by (auto; intros i w Hi; apply nodup_In, (VI i w); auto).
    apply (tends_ext F F_A F_I (fun d => total (map (fun s => pr (set_to f v s) (v :: C) d) D))).
    - apply F_fine_only. intros d Hd. destruct (facts d Hd) as (_ & (NO & SO & CS) & HE & HN & HS & HU). unfold pr at 2. unfold Nf.
      rewrite (F_drop (Sf d) (bf d) d method prior ess SO HU f v C D); auto; [rewrite realq_sum; auto|apply HN; auto|].
      intros s Hs. apply HS in Hs as (r & Hr & Es); auto. apply nodup_In. destruct Hd as [_ [_ DI]]. apply (DI r v); auto.
    - apply (tends_sum F F_T F_A F_I (fun s d => pr (set_to f v s) (v :: C) d)). intros s _. apply H.
  Qed.

  Lemma tends_any C : NoDup C -> (forall x, In x C -> In (LStr x) (nodes g)) -> forall f, tends F (pr f C) (share P (given f C)).
  Proof.
    intros NC IC. destruct PF as (NDo & Ino & _).
    assert (H0 : forall f, tends F (pr f order) (share P (given f order))) by (intros f; apply (tends_prefix order [] (eq_sym (app_nil_r _)))).
    assert (X : exists E, Permutation order (E ++ C)).
    { assert (I : incl C order) by (intros x Hx; apply Ino; auto). clear H0 Ino. clear PF ST IC. revert order NDo I. induction NC as [|c C Nc NC IH]; intros D ND I; [exists D; rewrite app_nil_r; auto|].
      destruct (in_split c D (I c (or_introl eq_refl))) as (D1 & D2 & ->).
      destruct (IH (D1 ++ D2)) as (E & Q).
      - eapply NoDup_remove_1; eauto.
      - intros x Hx. assert (Hx' := I x (or_intror Hx)). apply in_app_or in Hx'. apply in_or_app. destruct Hx' as [|[<-|]]; auto. contradiction.
      - exists E. transitivity (c :: D1 ++ D2); [symmetry; apply Permutation_middle|]. rewrite Q. apply Permutation_middle. }
    destruct X as (E & Q).
    assert (NDE : NoDup (E ++ C)) by (apply (Permutation_NoDup Q); auto).
    assert (IE : forall x, In x E -> In (LStr x) (nodes g)) by (intros x Hx; apply Ino, (Permutation_in _ (Permutation_sym Q)), in_or_app; auto).
    assert (H1 : forall f, tends F (pr f (E ++ C)) (share P (given f (E ++ C)))).
    { intros f. assert (J1 : incl (E ++ C) order) by (intros x; apply Permutation_in; symmetry; auto). assert (J2 : incl order (E ++ C)) by (intros x; apply Permutation_in; auto).
      rewrite (share_same P WP f (E ++ C) order) by auto. apply (tends_ext F F_A F_I (pr f order)); [apply F_fine_only; intros d Hd; apply pr_same; auto|apply H0]. }
    clear Q H0. induction E as [|x E IH]; cbn in *; auto. inversion NDE as [|? ? Nx NDE']; subst. apply IH; auto.
    apply (tends_drop x); auto.
  Qed.

  (** What an individual shows is seen sooner or later. *)
  Lemma seen_sometime i w u : In (i, w) P -> 0 < w -> In (LStr u) (nodes g) -> F (fun d => exists r, In r (d_rows d) /\ at_col r u = Some (i u)).
  Proof.
    intros Hi Hw Hu. destruct (parents_exist g u Nm) as (ps & Hps). destruct (family u ps i Hu Hps) as [_ L].
    refine (F_I _ _ _ (tends_pos F F_I _ _ _ L)).
    - intros d H. rewrite rows_share_agree in H.
      assert (An : agree (d_rows d) i (u :: ps) <> 0%nat) by (intros X; rewrite X in H; cbn in H; unfold Rdiv in H; rewrite Rmult_0_l in H; lra).
      unfold agree in An. destruct (filter _ (d_rows d)) as [|r l] eqn:Q; [destruct An; auto|].
      assert (Hr : In r (r :: l)) by (left; auto). rewrite <- Q in Hr. apply filter_In in Hr as [Hr K]. exists r. split; auto.
      cbn in K. apply andb_true_iff in K as [K _]. unfold holds in K. destruct (at_col r u) as [x|]; [|discriminate]. destruct (label_eqb_spec x (i u)); [subst; auto|discriminate].
    - apply (share_individual P WP i w); auto. apply shows_given. auto.
  Qed.

  Lemma tends_cond obs v s : NoDup (map fst obs) -> (forall u x, In (u, x) obs -> In (LStr u) (nodes g)) -> In (LStr v) (nodes g) -> 0 < share P obs ->
    tends F (fun d => realq (cond_prob (Nf d) obs v s)) (share P ((v, s) :: obs) / share P obs).
  Proof. intros ND HO Hv Pos. apply (cond_limit F F_T F_A F_I Nf P (fun x => In (LStr x) (nodes g))); auto. intros C NC IC f. apply tends_any; auto. Qed.

  Theorem consistent obs v s eps : NoDup (map fst obs) -> (forall u x, In (u, x) obs -> In (LStr u) (nodes g)) -> In (LStr v) (nodes g) -> 0 < share P obs -> 0 < eps ->
    F (fun d => exists e, trained g d method prior ess e /\ forall sc, Kruskal.good_sched sc -> exists r, InferModel.engine_query sc e obs = Ok r /\
      ((exists p, answer r v s = Some p /\ Rabs (realq p - share P ((v, s) :: obs) / share P obs) < eps) \/
       (share P ((v, s) :: obs) = 0 /\ forall r, In r (d_rows d) -> at_col r v <> Some s))).
  Proof.
    intros ND HO Hv Pos He.
    assert (So : F (fun d => forall ux, In ux obs -> exists r, In r (d_rows d) /\ at_col r (fst ux) = Some (snd ux))).
    { destruct (share_pos_ex P WP obs Pos) as (i & w & Hi & Hw & Sh). apply (F_list F F_T F_A F_I (fun ux d => exists r, In r (d_rows d) /\ at_col r (fst ux) = Some (snd ux))).
      intros [u x] Hu. cbn [fst snd]. unfold shows in Sh. rewrite forallb_forall in Sh. specialize (Sh _ Hu). cbn in Sh. destruct (label_eqb_spec (i u) x) as [Ex|]; [rewrite <- Ex in *|discriminate].
      apply (seen_sometime i w u); auto. apply (HO u (i u)); auto. }
    assert (Ss : F (fun d => share P ((v, s) :: obs) = 0 \/ exists r, In r (d_rows d) /\ at_col r v = Some s)).
    { destruct (Req_dec (share P ((v, s) :: obs)) 0) as [Z|Z]; [apply (F_all F F_T F_I); auto|].
      pose proof (share_nonneg P WP ((v, s) :: obs)) as Nn. destruct (share_pos_ex P WP ((v, s) :: obs) ltac:(lra)) as (i & w & Hi & Hw & Sh).
      cbn in Sh. apply andb_true_iff in Sh as [Sh _]. destruct (label_eqb_spec (i v) s) as [<-|]; [|discriminate].
      refine (F_I _ _ _ (seen_sometime i w v Hi Hw Hv)). auto. }
    refine (F_I _ _ _ (F_A _ _ (F_A _ _ F_fine So) (F_A _ _ Ss (tends_cond obs v s ND HO Hv Pos eps He)))).
    intros d [[Hd Sod] [Ssd Cl]]. destruct (facts d Hd) as ((e & Tr & HQ) & (NO & SO & CS) & HE & HN & HS & HU).
    exists e. split; auto. intros sc G. destruct (HQ sc obs G ND) as (r & Er & A).
    { intros u x H. split; [apply HN, (HO u x); auto|]. apply HS; [apply (HO u x); auto|]. apply (Sod (u, x) H). }
    exists r. split; auto.
    assert (Dec : forall x y : label, {x = y} + {x <> y}) by (intros x y; destruct (label_eqb_spec x y); auto).
    destruct (in_dec Dec s (declared (Sf d) v)) as [I|I].
    - left. eexists. split; [apply A; auto; apply HN; auto|auto].
    - right. assert (Un : ~ exists r0, In r0 (d_rows d) /\ at_col r0 v = Some s) by (intros X; apply I, HS; auto).
      split; [tauto|]. intros r0 Hr X. apply Un. eauto.
  Qed.
  (** ** Interventions *)
  Lemma facts_engine d : fine d -> exists fs e, trained g d method prior ess e /\ InferModel.engine_new (as_input (bf d) fs) = Ok e /\
    InferOps.good_bn (as_input (bf d) fs) /\ same_tables (InferOps.net_of (as_input (bf d) fs)) (Nf d).
  Proof.
    intros [CD [DC DI]].
    destruct (data_to_net_full g d method prior ess Rg Nm AC AL NE (fun x Hx => conj (DC x Hx) (Ids x Hx)) CD SW)
      as (b0' & b1 & b2 & S & fs & e & E0' & E1 & ES & E2 & Ec & Ee & HW & (Gd & Sm) & _).
    rewrite E0 in E0'. injection E0' as <-.
    assert (Eb : bf d = b2) by (unfold bf; rewrite E1; cbn [fst]; rewrite E2; auto).
    assert (Es : Sf d = S) by (unfold Sf; rewrite Eb, ES; auto). unfold Nf. rewrite Eb, Es.
    exists fs, e. split; [exists b0, b1, b2, fs; auto|]. auto.
  Qed.

  Section Effect.
    Context (v : string) (q : label -> Qc) (ps : list string).
    Context (Hv : In (LStr v) (nodes g)) (Hps : parents_are g v ps) (Qn : forall y, (0 <= q y)%Qc).
    Context (Cm : forall i w y, In (i, w) P -> 0 < w -> q y <> 0%Qc -> 0 < share P ((v, y) :: given i ps)).

    Let P' := intervened P v q ps.
    Let ok d := Qsum q (declared (Sf d) v) = 1%Qc.
    Let F' (Q : df -> Prop) : Prop := F (fun d => fine d -> ok d -> Q d).
    Let Tf d := truncated (Nf d) v (on_states q (declared (Sf d) v)).
    Let pt f C d := realq (Pr (Tf d) (observed (given f C))).

    Lemma G_T : F' (fun _ => True).
    Proof. refine (F_I _ _ _ F_T). auto. Qed.
    Lemma G_A Q1 Q2 : F' Q1 -> F' Q2 -> F' (fun t => Q1 t /\ Q2 t).
    Proof. intros A B. refine (F_I _ _ _ (F_A _ _ A B)). cbn. intros d [X Y] Z W. auto. Qed.
    Lemma G_I (Q1 Q2 : df -> Prop) : (forall t, Q1 t -> Q2 t) -> F' Q1 -> F' Q2.
    Proof. intros H. apply F_I. auto. Qed.
    Lemma G_only (Q : df -> Prop) : (forall d, fine d -> ok d -> Q d) -> F' Q.
    Proof. intros H. refine (F_I _ _ _ F_T). auto. Qed.
    Lemma G_lift Q : F Q -> F' Q.
    Proof. apply F_I. auto. Qed.

    Lemma P'_pos i : In i P' -> 0 <= snd i.
    Proof.
      intros H. apply in_map_iff in H as ([f w] & <- & H). cbn [fst snd]. pose proof (wpos P WP _ H) as W. cbn in W.
      apply Rmult_le_pos; auto. unfold Rdiv. apply Rmult_le_pos; [apply Rmult_le_pos; [apply realq_nonneg; auto|apply share_nonneg; auto]|].
      destruct (Req_dec (share P (given f (v :: ps))) 0) as [->|Z]; [rewrite Rinv_0; lra|].
      pose proof (share_nonneg P WP (given f (v :: ps))). left. apply Rinv_0_lt_compat. lra.
    Qed.
    Lemma P'_share f D : In v D -> incl ps D ->
      share P' (given f D) = share P (given f D) * (realq (q (f v)) * share P (given f ps) / share P (given f (v :: ps))).
    Proof.
      intros ID IP. unfold P', intervened. unfold share at 1 2. set (K := fun h : string -> label => realq (q (h v)) * share P (given h ps) / share P (given h (v :: ps))).
      change (total (map snd (filter (fun i => shows (fst i) (given f D)) (map (fun i => (fst i, snd i * K (fst i))) P))) = total (map snd (filter (fun i => shows (fst i) (given f D)) P)) * K f).
      assert (KE : forall h, shows h (given f D) = true -> K h = K f).
      { intros h H. rewrite shows_given in H. unfold K. rewrite (H v ID). rewrite (given_ext h f ps) by auto. rewrite (given_ext h f (v :: ps)); auto. intros x [<-|Hx]; auto. }
      clearbody K. clear -KE. induction P as [|[h w] l IH]; [unfold total; cbn; ring|]. cbn [map filter fst snd]. destruct (shows h (given f D)) eqn:E; auto.
      unfold total in *. cbn [map fold_right snd]. rewrite IH, (KE h E). ring.
    Qed.
    Lemma P'_seen A : 0 < share P' A -> exists i w, In (i, w) P /\ 0 < w /\ shows i A = true.
    Proof.
      intros H. assert (X : exists i, In i P' /\ 0 < snd i /\ shows (fst i) A = true).
      { revert H. unfold share. pose proof P'_pos as W. revert W. generalize P' as l. intros l. induction l as [|i l IH]; intros W H; [unfold total in H; cbn in H; lra|].
        assert (Wl := fun j Hj => W j (or_intror Hj)). cbn [filter] in H. destruct (shows (fst i) A) eqn:E.
        - pose proof (W i (or_introl eq_refl)). destruct (Req_dec (snd i) 0) as [Z|Z].
          + unfold total in *. cbn in H. rewrite Z, Rplus_0_l in H. destruct (IH Wl H) as (j & Hj & K). exists j. split; [right|]; auto.
          + exists i. split; [left; auto|]. split; [lra|auto].
        - destruct (IH Wl H) as (j & Hj & K). exists j. split; [right|]; auto. }
      destruct X as ([f w'] & Hi & Hw & Sh). apply in_map_iff in Hi as ([h w] & [= <- Ew] & Hi). exists h, w. split; auto. split; auto. cbn in *.
      pose proof (wpos P WP _ Hi) as W. cbn in W. destruct W as [W|W]; auto. exfalso. rewrite <- Ew, <- W, Rmult_0_l in Hw. lra.
    Qed.

    (** One network cut at the node *)
    Lemma cut d : fine d -> ok d -> exists c, In (v, c) (Nf d) /\ states c = declared (Sf d) v /\ parents c = ssort (get_parents (bf d) v) /\
      (forall s u, prob c s u = frequency (sm d v) (declared (Sf d)) (d_rows d) v (ssort (get_parents (bf d) v)) s u) /\ shape_ok (Tf d) /\ columns_sum_1 (Tf d).
    Proof.
      intros Hd Hok. destruct (facts d Hd) as (_ & (NO & SO & CS) & HE & HN & HS & HU). assert (Hb : In v (b_nodes (bf d))) by (apply HN; auto).
      destruct (F_In (Sf d) (bf d) d method prior ess HU v Hb) as (c & I & E1 & E2 & E3). exists c.
      split; [exact I|]. split; [exact E1|]. split; [exact E2|]. split; [exact E3|].
      apply (truncated_good _ v c); auto. rewrite E1. apply on_states_dist; auto. apply (F_nodup (Sf d) (bf d) d method prior ess SO HU). auto.
    Qed.

    Lemma pt_eq f d : fine d -> ok d -> pt f order d * pr f (v :: ps) d = pr f order d * realq (q (f v)) * pr f ps d.
    Proof.
      intros Hd Hok. destruct (cut d Hd Hok) as (c & I & E1 & E2 & E3 & SO' & CS'). destruct (facts d Hd) as (_ & (NO & SO & CS) & HE & HN & HS & HU).
      destruct PF as (NDo & Ino & Pfst). assert (Io : forall x, In x order <-> In x (b_nodes (bf d))) by (intros x; rewrite Ino, HN; tauto).
      set (pp := ssort (get_parents (bf d) v)) in *. destruct (parents_same d v ps Hd Hps) as [I1 I2]. fold pp in I1, I2.
      assert (Hb : In v (b_nodes (bf d))) by (apply HN; auto).
      assert (Ipp : forall p, In p pp -> In (p, v) (b_edges (bf d))) by (intros p H; apply get_parents_In, (Permutation_in _ (ssort_Perm _)); auto).
      assert (Ipn : forall p, In p pp -> In p (b_nodes (bf d))) by (intros p H; apply (no_touch _ NO); exists v; left; auto).
      assert (Evp : pr f (v :: ps) d = pr f (v :: pp) d) by (apply pr_same; auto; intros x [<-|H]; [left|right|left|right]; auto).
      assert (Ep : pr f ps d = pr f pp d) by (apply pr_same; auto).
      rewrite Evp, Ep.
      destruct (forallb (fun u => lmem (f u) (declared (Sf d) u)) (v :: pp)) eqn:Dc.
      - rewrite forallb_forall in Dc. assert (Dc' : forall u, In u (v :: pp) -> In (f u) (declared (Sf d) u)) by (intros u Hu; apply lmem_In, Dc; auto).
        assert (Bf : before (bf d) v pp).
        { split; [|split; [|split]].
          - constructor; [intros H; apply Ipp in H; apply (no_dag _ NO v), path_one; auto|]. destruct (ok_parents _ SO v c I) as [NDp _]. rewrite E2 in NDp. exact NDp.
          - intros x Hx. auto.
          - apply incl_refl.
          - intros x Hx Q. apply (no_dag _ NO v). eapply path_trans; [exact Q|apply path_one; auto]. }
        assert (Eq1 : pr f (v :: pp) d = pr f pp d * realq (prob c (f v) (map f pp))).
        { unfold pr, Nf. rewrite (F_step (Sf d) (bf d) d method prior ess NO SO CS HU v pp f Hb Bf Dc'). rewrite realq_mult. f_equal. rewrite E3. auto. }
        assert (Eq2 : pt f order d * realq (prob c (f v) (map f pp)) = pr f order d * realq (q (f v))).
        { unfold pt, pr. rewrite <- !realq_mult. f_equal. rewrite !CausalThms.Pr_obs.
          etransitivity; [apply (CausalDo.truncated_event (Nf d) v c _ SO SO' I (CausalThms.obsA (given f order)) (f v) (map f pp))|].
          - apply CausalThms.obsA_looks. intros x Hx. unfold given in Hx. rewrite map_map, map_id in Hx. apply (F_vars (Sf d) (bf d) d method prior ess), Io. auto.
          - intros a Ha. assert (Va : forall x, In x order -> a x = f x) by (intros x Hx; apply (CausalThms.obsA_val (given f order)); auto; apply in_map_iff; exists x; auto).
            split; [apply Va, Io; auto|]. rewrite E2. apply map_ext_in. intros x Hx. apply Va, Io. auto.
          - rewrite on_states_weight; auto; [apply (F_nodup (Sf d) (bf d) d method prior ess SO HU); auto|apply Dc'; left; auto]. }
        rewrite Eq1. rewrite <- Eq2. ring.
      - assert (Z : exists u, In u (v :: pp) /\ ~ In (f u) (declared (Sf d) u)).
        { clear -Dc. induction (v :: pp) as [|u l IH]; [discriminate|]. cbn in Dc. destruct (lmem (f u) (declared (Sf d) u)) eqn:E.
          - destruct (IH Dc) as (x & Hx & K). exists x. split; [right|]; auto.
          - exists u. split; [left; auto|]. intros H. apply lmem_In in H. congruence. }
        destruct Z as (u & Hu & Nu). assert (Hub : In u (b_nodes (bf d))) by (destruct Hu as [<-|Hu]; auto).
        unfold pr, Nf. rewrite (F_unseen (Sf d) (bf d) d method prior ess SO HU f (v :: pp) u Hu Hub Nu), (F_unseen (Sf d) (bf d) d method prior ess SO HU f order u (proj2 (Io u) Hub) Hub Nu).
        rewrite realq_0. ring.
    Qed.
    Lemma pt_bounds f C D d : fine d -> ok d -> incl C D -> 0 <= pt f D d <= pt f C d.
    Proof.
      intros Hd Hok J. destruct (cut d Hd Hok) as (c & I & _ & _ & _ & SO' & CS'). unfold pt. split; [apply realq_nonneg, Pr_nonneg; auto|]. apply realq_le, Pr_mono; auto.
      intros w _ H. unfold observed in *. rewrite forallb_forall in *. intros ux Hx. apply H. unfold given in *. apply in_map_iff in Hx as (u & <- & Hu). apply in_map_iff. eauto.
    Qed.
    Lemma pt_same f C D d : fine d -> ok d -> incl C D -> incl D C -> pt f C d = pt f D d.
    Proof. intros Hd Hok J K. apply Rle_antisym; eapply pt_bounds; eauto. Qed.

    (** The causes of the node are not affected. *)
    Lemma pt_causes f d : fine d -> ok d -> pt f ps d = pr f ps d.
    Proof.
      intros Hd Hok. destruct (cut d Hd Hok) as (c & I & E1 & E2 & E3 & SO' & CS'). destruct (facts d Hd) as (_ & (NO & SO & CS) & HE & HN & HS & HU).
      unfold pt, pr. f_equal. rewrite !CausalThms.Pr_obs. apply (CausalThms.unaffected_event (Nf d) v _ SO CS SO' CS' ps).
      - intros x Hx. assert (E : In (x, v) (b_edges (bf d))) by (apply HE, Hps; auto). split; [|split].
        + apply (F_vars (Sf d) (bf d) d method prior ess), (no_touch _ NO). exists v. left. auto.
        + intros ->. apply (no_dag _ NO v), path_one. auto.
        + intros Q. apply (no_dag _ NO v). eapply path_trans; [|apply path_one; exact E]. refine (path_mono _ _ _ _ _ Q).
          intros [a b] H. apply (F_arrow (Sf d) (bf d) d method prior ess NO SO HU). auto.
      - apply CausalThms.obsA_looks. intros x Hx. unfold given in Hx. rewrite map_map, map_id in Hx. auto.
    Qed.

    (** Where no weight is put there is nothing. *)
    Lemma pt_zero f C d : fine d -> ok d -> In v C -> (forall x, In x C -> In (LStr x) (nodes g)) -> q (f v) = 0%Qc -> pt f C d = 0.
    Proof.
      intros Hd Hok Hc IC Z. destruct (cut d Hd Hok) as (c & I & E1 & E2 & E3 & SO' & CS'). destruct (facts d Hd) as (_ & (NO & SO & CS) & HE & HN & HS & HU).
      assert (W : weight_in (on_states q (declared (Sf d) v)) (f v) = 0%Qc).
      { destruct (lmem (f v) (declared (Sf d) v)) eqn:E.
        - apply lmem_In in E. rewrite on_states_weight; auto. apply (F_nodup (Sf d) (bf d) d method prior ess SO HU). apply HN. auto.
        - apply on_states_other. intros H. apply lmem_In in H. congruence. }
      unfold pt. rewrite CausalThms.Pr_obs. rewrite (Pr_ext _ _ (fun w => (fun a => CausalThms.obsA (given f C) a && label_eqb (a v) (f v))%bool (at_ w))).
      - unfold Tf. etransitivity; [apply f_equal, (CausalDo.no_weight (Nf d) v c _ SO' I (CausalThms.obsA (given f C)) (f v)); auto|apply realq_0].
        apply CausalThms.obsA_looks. intros x Hx. unfold given in Hx. rewrite map_map, map_id in Hx. apply (F_vars (Sf d) (bf d) d method prior ess), HN. auto.
      - intros w _. cbn beta. destruct (CausalThms.obsA (given f C) (at_ w)) eqn:E; auto. rewrite (CausalThms.obsA_val _ _ v (f v) E); [|apply in_map_iff; exists v; auto].
        destruct (label_eqb_spec (f v) (f v)); [reflexivity|congruence].
    Qed.

    Lemma family_in : In v order /\ incl ps order.
    Proof.
      destruct PF as (_ & Ino & Pfst). assert (Ho : In v order) by (apply Ino; auto). split; auto. intros p Hp. apply Hps in Hp. apply in_split in Ho as (l1 & l2 & E).
      rewrite E. apply in_or_app. left. apply (Pfst l1 v l2 p); auto.
    Qed.
    Lemma nodes_of_ps p : In p ps -> In (LStr p) (nodes g).
    Proof. intros Hp. destruct PF as (_ & Ino & _). apply Ino, family_in. auto. Qed.
    Lemma nodup_family : NoDup (v :: ps).
    Proof. constructor; [|apply Hps]. intros H. apply Hps in H. apply (AC (LStr v)), path_one. auto. Qed.

    Lemma pt_order f : tends F' (pt f order) (share P' (given f order)).
    Proof.
      destruct family_in as [Iv Ip]. rewrite P'_share by auto.
      assert (L0 : tends F' (pr f order) (share P (given f order))) by (intros eps He; apply G_lift, tends_prefix with (post := []); [rewrite app_nil_r|]; auto).
      assert (L1 : tends F' (pr f (v :: ps)) (share P (given f (v :: ps)))).
      { intros eps He. apply G_lift. apply tends_any; auto; [apply nodup_family|]. intros x [<-|Hx]; auto. apply nodes_of_ps. auto. }
      assert (L2 : tends F' (pr f ps) (share P (given f ps))).
      { intros eps He. apply G_lift. apply tends_any; auto; [apply Hps|]. apply nodes_of_ps. }
      destruct (Req_dec (share P (given f (v :: ps))) 0) as [Z|Z].
      - assert (Zo : share P (given f order) = 0).
        { pose proof (share_nonneg P WP (given f order)). assert (X := share_sub P WP f (v :: ps) order ltac:(intros x [<-|Hx]; auto)). lra. }
        rewrite Zo, Rmult_0_l. destruct (Qc_eq_dec (q (f v)) 0%Qc) as [Zq|Nq].
        + apply (tends_ext F' G_A G_I (fun _ => 0)); [|apply (tends_const F' G_T G_I)]. apply G_only. intros d Hd Hok. symmetry. apply pt_zero; auto.
          intros x Hx. destruct PF as (_ & Ino & _). apply Ino. auto.
        + assert (Zp : share P (given f ps) = 0).
          { pose proof (share_nonneg P WP (given f ps)) as Nn. destruct (Req_dec (share P (given f ps)) 0) as [|N]; auto. exfalso.
            destruct (share_pos_ex P WP (given f ps) ltac:(lra)) as (i & w & Hi & Hw & Sh). rewrite shows_given in Sh. pose proof (Cm i w (f v) Hi Hw Nq) as X.
            rewrite (given_ext i f ps Sh) in X. change ((v, f v) :: given f ps) with (given f (v :: ps)) in X. lra. }
          rewrite Zp in L2. apply (tends_zero F' G_A G_I _ (pr f ps)); auto. apply G_only. intros d Hd Hok. rewrite <- pt_causes by auto. apply pt_bounds; auto.
      - assert (Pos : 0 < share P (given f (v :: ps))) by (pose proof (share_nonneg P WP (given f (v :: ps))); lra).
        apply (tends_ext F' G_A G_I (fun d => pr f order d * (realq (q (f v)) * pr f ps d / pr f (v :: ps) d))).
        + refine (F_two F' G_A G_I _ _ _ (G_only (fun d => fine d /\ ok d) (fun d A B => conj A B)) (tends_pos F' G_I _ _ Pos L1) _).
          intros d [Hd Hok] Hp. pose proof (pt_eq f d Hd Hok) as E. apply (Rmult_eq_reg_r (pr f (v :: ps) d)); [|lra]. rewrite E. field. lra.
        + apply (tends_mult F' G_A G_I); auto. apply (tends_div F' G_A G_I); auto. apply (tends_mult F' G_A G_I); auto. apply (tends_const F' G_T G_I).
    Qed.

    Lemma P'_same f C D : incl C D -> incl D C -> share P' (given f C) = share P' (given f D).
    Proof.
      intros A B. apply share_ext. intros h. destruct (shows h (given f C)) eqn:E1; destruct (shows h (given f D)) eqn:E2; auto; exfalso.
      - apply not_true_iff_false in E2. apply E2. rewrite shows_given in *. auto.
      - apply not_true_iff_false in E1. apply E1. rewrite shows_given in *. auto.
    Qed.
    Lemma P'_values i w u : In (i, w) P' -> In (LStr u) (nodes g) -> In (i u) (dom u).
    Proof. intros H Hu. apply in_map_iff in H as ([h w0] & [= <- _] & H). apply (VI h w0); auto. Qed.

    Lemma pt_drop u C : In (LStr u) (nodes g) -> ~ In u C -> (forall f, tends F' (pt f (u :: C)) (share P' (given f (u :: C)))) ->
      forall f, tends F' (pt f C) (share P' (given f C)).
    Proof.
      intros Hu Nu H f.
      assert (Dec : forall x y : label, {x = y} + {x <> y}) by (intros x y; destruct (label_eqb_spec x y); auto).
      set (D := nodup Dec (dom u)). assert (ND : NoDup D) by apply NoDup_nodup.
      rewrite (share_drop P' f u C D) by (auto; intros i w Hi; apply nodup_In, (P'_values i w); auto).
      apply (tends_ext F' G_A G_I (fun d => total (map (fun s => pt (set_to f u s) (u :: C) d) D))).
      - apply G_only. intros d Hd Hok. destruct (cut d Hd Hok) as (c & I & _ & _ & _ & SO' & CS'). destruct (facts d Hd) as (_ & (NO & SO & CS) & HE & HN & HS & HU). unfold pt at 2.
        rewrite (obs_drop (Tf d) f u C D); auto; [rewrite realq_sum; auto| |].
        + unfold Tf. rewrite CausalThms.truncated_vars. apply (F_vars (Sf d) (bf d) d method prior ess), HN. auto.
        + unfold Tf. rewrite CausalThms.truncated_states. unfold Nf. rewrite (F_states (Sf d) (bf d) d method prior ess SO HU) by (apply HN; auto).
          intros s Hs. apply HS in Hs as (r & Hr & Es); auto. apply nodup_In. destruct Hd as [_ [_ DI]]. apply (DI r u); auto.
      - apply (tends_sum F' G_T G_A G_I (fun s d => pt (set_to f u s) (u :: C) d)). intros s _. apply H.
    Qed.

    Lemma pt_any C : NoDup C -> (forall x, In x C -> In (LStr x) (nodes g)) -> forall f, tends F' (pt f C) (share P' (given f C)).
    Proof.
      intros NC IC. pose proof pt_order as H0. destruct PF as (NDo & Ino & _).
      assert (X : exists E, Permutation order (E ++ C)).
      { assert (J : incl C order) by (intros x Hx; apply Ino; auto). clear H0 Ino PF ST IC. revert order NDo J. induction NC as [|c C Nc NC IH]; intros D ND J; [exists D; rewrite app_nil_r; auto|].
        destruct (in_split c D (J c (or_introl eq_refl))) as (D1 & D2 & ->).
        destruct (IH (D1 ++ D2)) as (E & Q).
        - eapply NoDup_remove_1; eauto.
        - intros x Hx. assert (Hx' := J x (or_intror Hx)). apply in_app_or in Hx'. apply in_or_app. destruct Hx' as [|[<-|]]; auto. contradiction.
        - exists E. transitivity (c :: D1 ++ D2); [symmetry; apply Permutation_middle|]. rewrite Q. apply Permutation_middle. }
      destruct X as (E & Q).
      assert (NDE : NoDup (E ++ C)) by (apply (Permutation_NoDup Q); auto).
      assert (IE : forall x, In x E -> In (LStr x) (nodes g)) by (intros x Hx; apply Ino, (Permutation_in _ (Permutation_sym Q)), in_or_app; auto).
      assert (H1 : forall f, tends F' (pt f (E ++ C)) (share P' (given f (E ++ C)))).
      { intros f. assert (J1 : incl (E ++ C) order) by (intros x; apply Permutation_in; symmetry; auto). assert (J2 : incl order (E ++ C)) by (intros x; apply Permutation_in; auto).
        rewrite (P'_same f (E ++ C) order) by auto. apply (tends_ext F' G_A G_I (pt f order)); [apply G_only; intros d Hd Hok; apply pt_same; auto|apply H0]. }
      clear Q H0. induction E as [|x E IH]; cbn in *; auto. inversion NDE as [|? ? Nx NDE']; subst. apply IH; auto.
      apply (pt_drop x); auto.
    Qed.

    Theorem effects obs u s eps : NoDup (map fst obs) -> (forall t x, In (t, x) obs -> In (LStr t) (nodes g)) -> In (LStr u) (nodes g) -> 0 < share P' obs -> 0 < eps ->
      F (fun d => exists e, trained g d method prior ess e /\
        forall arg e', InferOps.arg_dict arg -> asks arg q -> InferModel.do_intervention e v arg = (e', Ok tt) ->
        forall sc r, Kruskal.good_sched sc -> InferModel.engine_query sc e' obs = Ok r ->
        (exists p, answer r u s = Some p /\ Rabs (realq p - share P' ((u, s) :: obs) / share P' obs) < eps) \/
        (share P' ((u, s) :: obs) = 0 /\ forall r, In r (d_rows d) -> at_col r u <> Some s)).
    Proof.
      intros ND HO Hu Pos He.
      assert (So : F (fun d => forall ux, In ux obs -> exists r, In r (d_rows d) /\ at_col r (fst ux) = Some (snd ux))).
      { destruct (P'_seen obs Pos) as (i & w & Hi & Hw & Sh). apply (F_list F F_T F_A F_I (fun ux d => exists r, In r (d_rows d) /\ at_col r (fst ux) = Some (snd ux))).
        intros [t x] Ht. cbn [fst snd]. unfold shows in Sh. rewrite forallb_forall in Sh. specialize (Sh _ Ht). cbn in Sh. destruct (label_eqb_spec (i t) x) as [Ex|]; [rewrite <- Ex in *|discriminate].
        apply (seen_sometime i w t); auto. apply (HO t (i t)); auto. }
      assert (Ss : F (fun d => share P' ((u, s) :: obs) = 0 \/ exists r, In r (d_rows d) /\ at_col r u = Some s)).
      { destruct (Req_dec (share P' ((u, s) :: obs)) 0) as [Z|Z]; [apply (F_all F F_T F_I); auto|].
        assert (Nn : 0 <= share P' ((u, s) :: obs)) by (apply (total_filter_le snd (fun i => shows (fst i) ((u, s) :: obs)) (fun _ => true)); auto; apply P'_pos).
        destruct (P'_seen ((u, s) :: obs) ltac:(lra)) as (i & w & Hi & Hw & Sh).
        cbn in Sh. apply andb_true_iff in Sh as [Sh _]. destruct (label_eqb_spec (i u) s) as [<-|]; [|discriminate].
        refine (F_I _ _ _ (seen_sometime i w u Hi Hw Hu)). auto. }
      assert (Cl : F (fun d => fine d -> ok d -> Rabs (realq (cond_prob (Tf d) obs u s) - share P' ((u, s) :: obs) / share P' obs) < eps)).
      { apply (cond_limit F' G_T G_A G_I Tf P' (fun x => In (LStr x) (nodes g)) obs u s); auto. intros C NC IC f. apply pt_any; auto. }
      refine (F_I _ _ _ (F_A _ _ (F_A _ _ F_fine So) (F_A _ _ Ss Cl))). clear So Ss Cl.
      intros d [[Hd Sod] [Ssd Cl]]. destruct (facts_engine d Hd) as (fs & e & Tr & Ee & Gd & Sm). destruct (facts d Hd) as (_ & (NO & SO & CS) & HE & HN & HS & HU).
      exists e. split; auto. intros arg e' AD As ED sc r G Q.
      assert (Hb : In v (b_nodes (bf d))) by (apply HN; auto).
      destruct (F_In (Sf d) (bf d) d method prior ess HU v Hb) as (c & I & E1 & E2 & E3).
      destruct (same_In _ _ v c Sm I) as (c0 & I0 & S0 & _ & _).
      destruct (CausalApi.new_do (as_input (bf d) fs) e e' v c0 arg Gd Ee AD ED I0) as (dd & DA & (Dn & Dk & Db & Dt) & SO1 & CS1 & An).
      rewrite S0, E1 in Dk. assert (NDs : NoDup (declared (Sf d) v)) by (apply (F_nodup (Sf d) (bf d) d method prior ess SO HU); auto).
      assert (Wq : forall y, In y (declared (Sf d) v) -> weight_in dd y = q y).
      { intros y Hy. apply Dk in Hy. apply in_map_iff in Hy as ([y' p] & <- & Hy). cbn [fst]. rewrite (weight_in_In dd y' p Dn Hy).
        destruct arg as [z|a|]; cbn in DA, As; [|subst a|destruct As].
        - rewrite As. apply DA in Hy. auto.
        - symmetry. auto. }
      assert (Hok : ok d).
      { unfold ok. rewrite <- Dt, <- (fst_snd_weight dd Dn (declared (Sf d) v) NDs Dk). apply Qsum_ext. intros y Hy. symmetry. auto. }
      assert (ST' : same_tables (truncated (InferOps.net_of (as_input (bf d) fs)) v dd) (Tf d)).
      { apply same_truncated; auto. intros c1 y I1 Hy. rewrite on_states_weight; auto.
        - apply Wq. rewrite <- E1, <- S0. replace c0 with c1; auto.
          assert (X : dget String.eqb (InferOps.net_of (as_input (bf d) fs)) v = Some c0) by (apply (In_dget _ String.eqb_spec); [apply Gd|auto]).
          assert (Y : dget String.eqb (InferOps.net_of (as_input (bf d) fs)) v = Some c1) by (apply (In_dget _ String.eqb_spec); [apply Gd|auto]). congruence.
        - rewrite <- E1, <- S0. replace c0 with c1; auto.
          assert (X : dget String.eqb (InferOps.net_of (as_input (bf d) fs)) v = Some c0) by (apply (In_dget _ String.eqb_spec); [apply Gd|auto]).
          assert (Y : dget String.eqb (InferOps.net_of (as_input (bf d) fs)) v = Some c1) by (apply (In_dget _ String.eqb_spec); [apply Gd|auto]). congruence. }
      assert (Vars : forall t, In (LStr t) (nodes g) -> In t (vars (InferOps.net_of (as_input (bf d) fs)))).
      { intros t Ht. rewrite (same_vars _ _ Sm). apply (F_vars (Sf d) (bf d) d method prior ess), HN. auto. }
      assert (Sts : forall t, In (LStr t) (nodes g) -> states_of (InferOps.net_of (as_input (bf d) fs)) t = declared (Sf d) t).
      { intros t Ht. rewrite (same_states _ _ t Sm). apply (F_states (Sf d) (bf d) d method prior ess SO HU), HN. auto. }
      destruct (An sc obs r G) as [A _]; auto.
      { split; auto. intros t x H. pose proof (HO t x H) as Ht. split; auto. rewrite Sts by auto. apply HS; auto. apply (Sod (t, x) H). }
      assert (Dec : forall x y : label, {x = y} + {x <> y}) by (intros x y; destruct (label_eqb_spec x y); auto).
      destruct (in_dec Dec s (declared (Sf d) u)) as [J|J].
      - left. eexists. split; [apply A; auto; rewrite Sts; auto|]. rewrite (same_cond _ _ obs u s SO1 ST'). apply Cl; auto.
      - right. assert (Un : ~ exists r0, In r0 (d_rows d) /\ at_col r0 u = Some s) by (intros X; apply J, HS; auto).
        split; [tauto|]. intros r0 Hr X. apply Un. eauto.
    Qed.
  End Effect.
End Consist.

(** ** The population after an intervention *)
Lemma shrink (Q : list string -> Prop) (all : list string) : NoDup all -> Q all -> (forall C D, incl C D -> incl D C -> Q C -> Q D) ->
  (forall u C, In u all -> ~ In u C -> incl C all -> NoDup C -> Q (u :: C) -> Q C) -> forall C, NoDup C -> incl C all -> Q C.
Proof.
  intros NA Qa Same Drop C NC IC.
  assert (X : exists E, Permutation all (E ++ C)).
  { clear Qa Drop Same. revert all NA IC. induction NC as [|c C Nc NC IH]; intros D ND J; [exists D; rewrite app_nil_r; auto|].
    destruct (in_split c D (J c (or_introl eq_refl))) as (D1 & D2 & ->). destruct (IH (D1 ++ D2)) as (E & H).
    - eapply NoDup_remove_1; eauto.
    - intros x Hx. assert (Hx' := J x (or_intror Hx)). apply in_app_or in Hx'. apply in_or_app. destruct Hx' as [|[<-|]]; auto. contradiction.
    - exists E. transitivity (c :: D1 ++ D2); [symmetry; apply Permutation_middle|]. rewrite H. apply Permutation_middle. }
  destruct X as (E & H). assert (NDE : NoDup (E ++ C)) by (apply (Permutation_NoDup H); auto).
  assert (I : incl (E ++ C) all) by (intros x; apply Permutation_in; symmetry; auto).
  assert (H1 : Q (E ++ C)) by (apply (Same all); auto; intros x; apply Permutation_in; auto).
  clear H. induction E as [|x E IH]; auto. cbn in *. inversion NDE as [|? ? Nx NDE']; subst. apply IH; auto; [intros y Hy; apply I; right; auto|].
  apply (Drop x); auto; [apply I; left; auto|intros y Hy; apply I; right; auto].
Qed.

Lemma total_scale {A} (k : R) (h : A -> R) l : total (map (fun s => k * h s) l) = k * total (map h l).
Proof. unfold total. induction l as [|x l IH]; cbn; [ring|]. rewrite IH. ring. Qed.

Section Intervened.
  Context (P : population) (v : string) (q : label -> Qc) (ps : list string) (D : list label).
  Context (WP : weighted P) (ND : NoDup (v :: ps)) (Qn : forall y, (0 <= q y)%Qc) (NDD : NoDup D) (HD : forall i w, In (i, w) P -> In (i v) D) (Q1 : Qsum q D = 1%Qc).
  Context (Cm : forall i w y, In (i, w) P -> 0 < w -> q y <> 0%Qc -> 0 < share P ((v, y) :: given i ps)).
  Let P' := intervened P v q ps.

  Lemma values_exist u : exists L, NoDup L /\ (forall i w, In (i, w) P -> In (i u) L).
  Proof.
    assert (Dec : forall x y : label, {x = y} + {x <> y}) by (intros x y; destruct (label_eqb_spec x y); auto).
    exists (nodup Dec (map (fun i => fst i u) P)). split; [apply NoDup_nodup|]. intros i w H. apply nodup_In, in_map_iff. exists (i, w). auto.
  Qed.
  Lemma same_people i w : In (i, w) P' -> exists w0, In (i, w0) P.
  Proof. intros H. apply in_map_iff in H as ([h w0] & [= <- _] & H). eauto. Qed.

  (** The value is drawn whatever the causes are. *)
  Lemma drawn f C : NoDup C -> incl C ps -> share P' (given f (v :: C)) = realq (q (f v)) * share P (given f C).
  Proof.
    inversion ND as [|? ? Nv NDp]; subst. intros NC IC. revert f. apply (shrink (fun C => forall f, share P' (given f (v :: C)) = realq (q (f v)) * share P (given f C)) ps); auto.
    - intros f. unfold P'. rewrite P'_share; [|left; auto|intros x Hx; right; auto].
      destruct (Req_dec (share P (given f (v :: ps))) 0) as [Z|Z]; [|field; auto]. rewrite Z, Rmult_0_l.
      destruct (Qc_eq_dec (q (f v)) 0%Qc) as [->|Nq]; [rewrite realq_0; ring|].
      destruct (Req_dec (share P (given f ps)) 0) as [->|N]; [ring|]. exfalso. pose proof (share_nonneg P WP (given f ps)) as Nn.
      destruct (share_pos_ex P WP (given f ps) ltac:(lra)) as (i & w & Hi & Hw & Sh). rewrite shows_given in Sh. pose proof (Cm i w (f v) Hi Hw Nq) as X.
      rewrite (given_ext i f ps Sh) in X. change ((v, f v) :: given f ps) with (given f (v :: ps)) in X. lra.
    - intros A B I J H f. specialize (H f). rewrite <- (share_same P WP f A B) by auto. rewrite <- H. apply share_ext. intros h.
      change ((label_eqb (h v) (f v) && shows h (given f B))%bool = (label_eqb (h v) (f v) && shows h (given f A))%bool). f_equal.
      apply eq_true_iff_eq. rewrite !shows_given. split; auto.
    - intros u A Hu Nu IA NA H f. destruct (values_exist u) as (L & NL & HL). assert (Nuv : v <> u) by congruence.
      rewrite (share_drop P f u A L) by auto.
      rewrite (share_drop P' f u (v :: A) L); [| intros [|]; congruence|auto|intros i w Hi; destruct (same_people i w Hi); eauto].
      transitivity (total (map (fun s => realq (q (f v)) * share P (given (set_to f u s) (u :: A))) L)).
      + f_equal. apply map_ext. intros s. specialize (H (set_to f u s)). rewrite (set_other f u s v) in H by auto. rewrite <- H. apply share_ext. intros h.
        cbn [given map]. unfold shows. cbn [forallb fst snd]. rewrite !andb_assoc. f_equal. apply andb_comm.
      + apply total_scale.
  Qed.

  (** The causes are as before. *)
  Lemma causes_kept f C : NoDup C -> incl C ps -> share P' (given f C) = share P (given f C).
  Proof.
    inversion ND as [|? ? Nv NDp]; subst. intros NC IC.
    rewrite (share_drop P' f v C D); [|auto|auto|intros i w Hi; destruct (same_people i w Hi); eauto].
    transitivity (total (map (fun s => realq (q s) * share P (given f C)) D)).
    - f_equal. apply map_ext. intros s. rewrite drawn by auto. rewrite set_same. f_equal. f_equal. apply given_ext. intros u Hu. apply set_other. intros ->. auto.
    - transitivity (total (map (fun s => realq (q s)) D) * share P (given f C)).
      { rewrite Rmult_comm, <- total_scale. f_equal. apply map_ext. intros s. ring. }
      rewrite <- realq_sum, Q1, realq_1. ring.
  Qed.

  Lemma intervened_weighted : weighted P'.
  Proof.
    split.
    - intros f w H. apply (P'_pos P WP v q ps Qn (f, w)). auto.
    - pose proof (causes_kept (fun _ => LInt 0) [] (NoDup_nil _) (fun x (H : In x []) => match H with end)) as H. cbn in H. rewrite (share_nil P WP) in H.
      rewrite <- H. unfold share. cbn. rewrite filter_all by auto. auto.
  Qed.
End Intervened.

(** The rows of complete data as a population. *)
Definition individual (r : list (string * option label)) (u : string) : label := match at_col r u with Some x => x | None => LInt 0 end.
Definition population_of (d : df) : population := map (fun r => (individual r, / INR (List.length (d_rows d)))) (d_rows d).

Lemma total_const {A} (c : R) (l : list A) : total (map (fun _ => c) l) = INR (List.length l) * c.
Proof. unfold total. induction l as [|a l IH]; cbn [map fold_right List.length]; [cbn; ring|]. rewrite IH, S_INR. ring. Qed.

Lemma share_of d A : complete d -> (forall u x, In (u, x) A -> In u (d_cols d)) -> share (population_of d) A = rows_share d A.
Proof.
  intros (_ & NR & Full & _) HA. unfold share, rows_share, population_of. set (c := / INR (List.length (d_rows d))).
  assert (E : forall rows, incl rows (d_rows d) -> total (map snd (filter (fun i => shows (fst i) A) (map (fun r => (individual r, c)) rows))) =
    INR (List.length (filter (fun r => forallb (fun ux => holds r (fst ux) (snd ux)) A) rows)) * c).
  { induction rows as [|r rows IH]; intros I; [unfold total; cbn; ring|]. cbn [map filter fst].
    assert (K : shows (individual r) A = forallb (fun ux => holds r (fst ux) (snd ux)) A).
    { unfold shows. assert (Hr : In r (d_rows d)) by (apply I; left; auto). clear -Hr HA Full.
      induction A as [|[u x] A IH]; cbn; auto. rewrite IH by (intros; eapply HA; right; eauto). f_equal. unfold individual, holds.
      pose proof (Full r u Hr (HA u x (or_introl eq_refl))). destruct (at_col r u); [auto|congruence]. }
    rewrite K. specialize (IH (fun x Hx => I x (or_intror Hx))). destruct (forallb _ A); auto. cbn [map]. unfold total in *. cbn [fold_right snd List.length]. rewrite IH, S_INR. ring. }
  rewrite E by (intros r; auto). reflexivity.
Qed.

Lemma weighted_of d : complete d -> weighted (population_of d).
Proof.
  intros (_ & NR & _). assert (Pn : 0 < INR (List.length (d_rows d))) by (apply (lt_INR 0); destruct (d_rows d); [congruence|cbn; lia]).
  unfold population_of. split.
  - intros f w H. apply in_map_iff in H as (r & [= <- <-] & _). left. apply Rinv_0_lt_compat. auto.
  - rewrite map_map. cbn [snd]. rewrite total_const. field. lra.
Qed.
