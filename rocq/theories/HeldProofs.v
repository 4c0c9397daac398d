(** * HeldProofs: how often predictions are right on held-out data and in the population. *)
From Coq Require Import List Bool Arith ZArith Lia String QArith Qcanon Permutation Reals Lra.
From Verif Require Import Base QcX Digraph SmModel SmProofs SmHist SmThms NetModel NetProofs NetFit NetThms NetBridge NetEquiv NetMoral NetMarkov.
From Verif Require Import AcycLink OrdProofs FitBound NetBayes NetConsist NetSample VoteProofs.
Import ListNotations.
Local Open Scope list_scope.
Local Open Scope R_scope.

(** How many combinations of values the attributes [C] have. *)
Fixpoint choices (dom : string -> list label) (C : list string) : nat :=
  match C with [] => 1%nat | c :: C => (List.length (dom c) * choices dom C)%nat end.

Lemma choices_product dom C : List.length (product (map dom C)) = choices dom C.
Proof.
  induction C as [|c C IH]; auto. cbn. rewrite <- IH. generalize (dom c). intros l. induction l as [|x l IHl]; auto. cbn. rewrite app_length, map_length, IHl. auto.
Qed.

(** ** A sum over the combinations *)
Section Groups.
  Context {A K : Type} (w : A -> R) (hit : A -> label -> bool) (key : A -> K) (keqb : K -> K -> bool) (ks : forall x y, reflect (x = y) (keqb x y)).
  Lemma one_group (a : A) (H : K -> label) L : NoDup L -> In (key a) L ->
    total (map (fun k => if keqb (key a) k && hit a (H k) then w a else 0) L) = if hit a (H (key a)) then w a else 0.
  Proof.
    assert (No : forall L, ~ In (key a) L -> total (map (fun k => if keqb (key a) k && hit a (H k) then w a else 0) L) = 0).
    { intros M. unfold total. induction M as [|k M IH]; intros N; cbn; auto. destruct (ks (key a) k) as [E|E]; [destruct N; left; auto|]. cbn. rewrite IH; [lra|intros X; apply N; right; auto]. }
    induction L as [|k L IH]; intros ND I; [destruct I|]. apply NoDup_cons_iff in ND as [N ND]. unfold total in *. cbn.
    destruct (ks (key a) k) as [E|E].
    - cbn [andb]. rewrite No by (rewrite E; auto). rewrite E. lra.
    - cbn [andb]. destruct I as [I|I]; [congruence|]. rewrite IH by auto. lra.
  Qed.
  Lemma score_groups (H : K -> label) h L items : NoDup L -> (forall a, In a items -> In (key a) L /\ h a = H (key a)) ->
    score w hit items h = total (map (fun k => mass w hit key keqb items k (H k)) L).
  Proof.
    intros ND. induction items as [|a l IH]; intros Hi.
    - unfold score, mass, total. cbn. clear. induction L as [|k L IHL]; cbn; auto. rewrite <- IHL. lra.
    - destruct (Hi a (or_introl eq_refl)) as [I E]. unfold score in *. cbn [map]. change (total (?x :: ?l)) with (x + total l). rewrite IH by (intros; apply Hi; right; auto).
      rewrite E, <- (one_group a H L ND I), <- total_add. f_equal.
  Qed.
End Groups.

Lemma total_near {B} (a b : B -> R) eps l : (forall k, In k l -> Rabs (a k - b k) <= eps) -> Rabs (total (map a l) - total (map b l)) <= INR (List.length l) * eps.
Proof.
  unfold total. induction l as [|k l IH]; intros H; cbn [map fold_right]; [rewrite Rminus_0_r, Rabs_R0; cbn; lra|].
  specialize (IH (fun x X => H x (or_intror X))). specialize (H k (or_introl eq_refl)). cbn [List.length]. rewrite S_INR.
  replace (_ - _) with ((a k - b k) + (fold_right Rplus 0 (map a l) - fold_right Rplus 0 (map b l))) by ring.
  eapply Rle_trans; [apply Rabs_triang|]. lra.
Qed.
Lemma total_div {B} (a : B -> R) n l : total (map a l) / n = total (map (fun k => a k / n) l).
Proof. unfold total. induction l as [|k l IH]; cbn; [unfold Rdiv; ring|]. rewrite <- IH. unfold Rdiv. ring. Qed.

(** ** Individuals with given values *)
Fixpoint with_values (C : list string) (u : list label) (x : string) : label :=
  match C, u with c :: C, s :: u => if String.eqb x c then s else with_values C u x | _, _ => LInt 0 end.
Lemma with_values_map C u : NoDup C -> List.length u = List.length C -> map (with_values C u) C = u.
Proof.
  revert u. induction C as [|c C IH]; intros [|s u] ND E; try discriminate; auto. apply NoDup_cons_iff in ND as [N ND]. cbn. rewrite String.eqb_refl. f_equal.
  etransitivity; [|apply (IH u); auto]. apply map_ext_in. intros x Hx. destruct (String.eqb_spec x c); [subst; contradiction|auto].
Qed.

Definition seen (o : option label) : label := match o with Some x => x | None => LInt 0 end.
Definition row_key (C : list string) (r : list (string * option label)) : list label := map (fun c => seen (at_col r c)) C.

Lemma holds_seen r c x : at_col r c <> None -> holds r c x = label_eqb (seen (at_col r c)) x.
Proof. unfold holds. destruct (at_col r c); [auto|congruence]. Qed.

Lemma mass_rows rows v ps u l : NoDup ps -> ~ In v ps -> List.length u = List.length ps -> (forall r c, In r rows -> In c ps -> at_col r c <> None) ->
  mass (fun _ => 1) (fun t x => holds t v x) (row_key ps) lkeqb rows u l = INR (agree rows (put (with_values ps u) v l) (v :: ps)).
Proof.
  intros ND Nv Eu Full. unfold mass, agree, total. induction rows as [|r rows IH]; auto. cbn [map fold_right filter].
  rewrite IH by (intros; apply Full; auto; right; auto).
  assert (E : lkeqb (row_key ps r) u = forallb (fun c => holds r c (put (with_values ps u) v l c)) ps).
  { rewrite <- (with_values_map ps u ND Eu) at 1. rewrite <- (put_map (with_values ps u) v l ps Nv). clear IH Eu ND Nv. generalize (put (with_values ps u) v l). intros f.
    assert (Fr : forall c, In c ps -> at_col r c <> None) by (intros; apply Full; auto; left; auto). clear Full. unfold row_key. induction ps as [|c C IH]; auto. cbn. unfold lkeqb in *. cbn. rewrite IH by (intros; apply Fr; right; auto).
    rewrite holds_seen by (apply Fr; left; auto). auto. }
  cbn [forallb]. rewrite put_same, <- E, andb_comm. destruct (_ && _); [cbn [List.length]; rewrite S_INR; lra|lra].
Qed.

Lemma share_with P v ps u l : NoDup ps -> List.length u = List.length ps ->
  mass snd (fun j x => label_eqb (fst j v) x) (fun j => map (fst j) ps) lkeqb P u l = share P ((v, l) :: given (with_values ps u) ps).
Proof. intros ND E. rewrite <- (with_values_map ps u ND E) at 1. apply (mass_share P v ps (with_values ps u, 0)). Qed.

Theorem held_out g d method prior ess P dom v ps test eps cols pg : reached g -> named g -> acyclic (edges g) -> all_linked g -> edges g <> [] ->
  (forall x, In (LStr x) (nodes g) -> In x (d_cols d)) -> complete d -> sound_way method prior ess -> In (LStr v) (nodes g) -> parents_are g v ps ->
  values_in g dom P -> complete test -> data_in g dom test -> near g P test eps ->
  (forall p x, In p ps -> In x (dom p) -> exists r, In r (d_rows d) /\ at_col r p = Some x) -> incl ps cols -> 0 <= eps ->
  exists b out outP, learnt_from g d method prior ess b /\ predict pg b test v = Ok out /\ predict pg b (frame cols (map fst P)) v = Ok outP /\
    Rabs (INR (hits (d_rows test) v out) / INR (List.length (d_rows test)) - right P v outP) <= INR (choices dom ps) * eps.
Proof.
  intros Rg Nm AC AL NE Names CD SW Hv Hps VI CT [TC TI] Near Shown Hc He.
  destruct (to_learnt g d method prior ess Rg Nm AC AL NE Names CD SW) as (b0 & b1 & b2 & S & E0 & E1 & E2 & R1 & NS & Ne & Ic & HE & HN & Dec & Us).
  set (qs := ssort (get_parents b1 v)). pose proof Hps as [ND Hpe].
  assert (Hg : forall p, In p (get_parents b1 v) <-> In p ps) by (intros p; rewrite Hpe, <- HE, <- get_parents_In; tauto).
  assert (Hq : forall p, In p qs <-> In p ps).
  { intros p. rewrite <- Hg. split; apply Permutation_in; [|apply Permutation_sym]; apply ssort_Perm. }
  assert (Hqn : incl qs (b_nodes b1)) by (apply parents_nodes, reached_net_ok; auto).
  assert (Nv : ~ In v ps) by (intros X; apply Hpe in X; apply (AC (LStr v)); constructor; auto).
  assert (Pn : forall p, In p ps -> In (LStr p) (nodes g)) by (intros p Hp; apply HN, Hqn, Hq; auto).
  pose (h := fun r => value (told b1 S d method prior ess v r)).
  assert (Told : forall r, (forall p, In p ps -> exists x, at_col r p = Some x /\ In x (dom p)) -> told b1 S d method prior ess v r = Ok (h r)).
  { intros r Hr. assert (X : exists u, parent_values r qs u /\ In u (product (map (declared S) qs))).
    { assert (Il : incl qs qs) by (intros x; auto). revert Il. generalize qs at 1 3 4. intros l. induction l as [|p l IH]; intros Il; [exists []; split; [constructor|left; auto]|].
      destruct IH as (u & A & B); [intros x Hx; apply Il; right; auto|]. assert (Hp : In p qs) by (apply Il; left; auto).
      destruct (Hr p (proj1 (Hq p) Hp)) as (x & Ex & Dx).
      exists (x :: u). split; [constructor; auto|]. apply product_In. cbn. constructor; [|apply product_In; auto]. apply Dec; [apply Ic, Hqn; auto|]. apply Shown; auto. apply Hq; auto. }
    destruct X as (u & Pv & Iu). destruct (told_winner b1 S d R1 Ne method prior ess v r u SW (proj2 (HN v) Hv) Pv Iu) as (x & Ex & _).
    unfold h. rewrite Ex. auto. }
  set (row_of := fun f : string -> label => map (fun c => (c, Some (f c))) cols).
  pose (H := fun u => h (row_of (with_values ps u))).
  assert (Full : forall r c, In r (d_rows test) -> In c ps -> exists x, at_col r c = Some x /\ In x (dom c)).
  { intros r c Hr Hcp. destruct CT as (_ & _ & F & _). destruct (at_col r c) as [x|] eqn:Ex; [exists x; split; [auto|apply (TI r c x); auto]|destruct (F r c Hr (TC c (Pn c Hcp)) Ex)]. }
  assert (Dk : forall x y : list label, {x = y} + {x <> y}) by (intros x y; destruct (list_eqb_spec x y); auto).
  set (L := nodup Dk (product (map dom ps))).
  assert (Ll : (List.length L <= choices dom ps)%nat).
  { rewrite <- choices_product. apply NoDup_incl_length; [apply NoDup_nodup|]. intros x Hx. apply nodup_In in Hx. auto. }
  assert (NDL : NoDup L) by apply NoDup_nodup.
  assert (LL : forall u, In u L -> List.length u = List.length ps).
  { intros u Hu. apply nodup_In, product_In in Hu. rewrite <- (map_length dom ps). clear -Hu. induction Hu; cbn; auto. }
  assert (Key : forall r, (forall p, In p ps -> exists x, at_col r p = Some x /\ In x (dom p)) -> In (row_key ps r) L /\ h r = H (row_key ps r)).
  { intros r Hr. split.
    - apply nodup_In, product_In. clear -Hr. unfold row_key. induction ps as [|p l IH]; cbn; constructor; [|apply IH; intros; apply Hr; right; auto].
      destruct (Hr p (or_introl eq_refl)) as (x & -> & Dx). auto.
    - unfold H, h. f_equal. apply told_looks; auto; [apply HN; auto|]. intros q Iq. apply Hg in Iq. destruct (Hr q Iq) as (x & Ex & _).
      unfold row_of. rewrite frame_at by auto. rewrite Ex. f_equal.
      assert (Em : map (with_values ps (row_key ps r)) ps = map (fun c => seen (at_col r c)) ps) by (apply with_values_map; auto; unfold row_key; apply map_length).
      rewrite (map_agree _ _ ps Em q Iq), Ex. auto. }
  assert (KeyP : forall i, In i P -> In (map (fst i) ps) L /\ h (row_of (fst i)) = H (map (fst i) ps)).
  { intros [i w] Hi. cbn [fst]. assert (E : row_key ps (row_of i) = map i ps).
    { unfold row_key. apply map_ext_in. intros c Ic'. unfold row_of. rewrite frame_at by auto. auto. }
    rewrite <- E. apply Key. intros p Hp. exists (i p). unfold row_of. rewrite frame_at by auto. split; [auto|]. apply (VI i w p Hi). auto. }
  exists b2, (map h (d_rows test)), (map (fun i => h (row_of (fst i))) P). split; [exists b0, b1; auto|]. split; [|split].
  - rewrite (predict_told b1 S d R1 NS Ne Ic method prior ess b2 v test pg SW E2 (proj2 (HN v) Hv)).
    + apply mapM_map. intros r Hr. apply Told. intros p Hp. apply Full; auto.
    + intros p Hp. apply TC, Pn, Hg. auto.
  - rewrite (predict_told b1 S d R1 NS Ne Ic method prior ess b2 v (frame cols (map fst P)) pg SW E2 (proj2 (HN v) Hv)).
    + cbn [frame d_rows]. fold row_of. rewrite map_map. transitivity (mapM (fun i => told b1 S d method prior ess v (row_of (fst i))) P).
      * clear. induction P as [|i l IH]; auto. cbn. rewrite IH. auto.
      * apply mapM_map. intros [i w] Hi. apply Told. cbn [fst]. intros p Hp. exists (i p). unfold row_of. rewrite frame_at by auto. split; [auto|]. apply (VI i w p Hi). auto.
    + cbn [frame d_cols]. intros p Hp. apply Hc, Hg. auto.
  - rewrite hits_score, right_score.
    rewrite (score_groups _ _ (row_key ps) lkeqb list_eqb_spec H h L (d_rows test) NDL) by (intros r Hr; apply Key; intros p Hp; apply Full; auto).
    rewrite (score_groups _ _ (fun i => map (fst i) ps) lkeqb list_eqb_spec H (fun i => h (row_of (fst i))) L P NDL KeyP).
    rewrite total_div. eapply Rle_trans.
    + apply total_near with (eps := eps). intros u Hu.
      rewrite mass_rows by (auto; intros r c Hr Hcp; destruct (Full r c Hr Hcp) as (x & Ex & _); congruence).
      rewrite share_with by auto. destruct (Near v ps (put (with_values ps u) v (H u)) Hv Hps) as [_ X]. rewrite rows_share_agree in X. unfold given in X. cbn [map] in X.
      fold (given (put (with_values ps u) v (H u)) ps) in X. rewrite put_same, put_given in X; auto.
    + apply Rmult_le_compat_r; auto. apply le_INR. auto.
Qed.
