(** * SemProofs: the loop of the data generators over the nodes. *)
From Coq Require Import List Bool Arith ZArith Lia String QArith Qcanon Permutation.
From Verif Require Import Base Digraph SmModel QcX NotearsModel TorchModel SemModel.
Import ListNotations.
Local Open Scope list_scope.
Local Open Scope nat_scope.

Lemma position_some x l k : position x l = Some k -> k < List.length l /\ nth k l 0 = x.
Proof. unfold position. intros H. apply find_some in H. destruct H as [H E]. apply in_seq in H. apply Nat.eqb_eq in E. split; [lia|auto]. Qed.
Lemma position_none x l : position x l = None -> ~ In x l.
Proof.
  unfold position. intros H I. apply (In_nth l x 0) in I. destruct I as (k & Hk & E). pose proof (find_none _ _ H k) as N. cbv beta in N. rewrite E, Nat.eqb_refl in N. assert (Q : true = false) by (apply N; apply in_seq; lia). discriminate Q.
Qed.
Lemma position_nth l k : NoDup l -> k < List.length l -> position (nth k l 0) l = Some k.
Proof.
  intros N Hk. destruct (position (nth k l 0) l) as [k'|] eqn:E.
  - apply position_some in E. destruct E as [L E]. f_equal. apply (proj1 (NoDup_nth l 0) N); auto.
  - apply position_none in E. exfalso. apply E. apply nth_In. auto.
Qed.
Lemma position_notin x l : ~ In x l -> position x l = None.
Proof. intros H. destruct (position x l) as [k|] eqn:E; auto. apply position_some in E. destruct E as [L E]. exfalso. apply H. rewrite <- E. apply nth_In; auto. Qed.

Lemma set_cols_outside n js : forall cs x i j, ~ In j js -> set_cols n x js cs i j = x i j.
Proof.
  unfold set_cols. induction js as [|a js IH]; intros cs x i j H; [reflexivity|]. destruct cs as [|c cs]; [reflexivity|]. cbn [combine fold_left fst snd]. rewrite IH by (intros Q; apply H; right; auto).
  destruct (Nat.eqb_spec j a) as [->|]; [exfalso; apply H; left; auto|reflexivity].
Qed.
Lemma set_cols_inside n js : forall cs x i k, NoDup js -> List.length cs = List.length js -> i < n -> k < List.length js ->
  set_cols n x js cs i (nth k js 0) = nth i (nth k cs []) 0%Qc.
Proof.
  unfold set_cols. induction js as [|a js IH]; intros cs x i k N L Hi Hk; [cbn in Hk; lia|]. destruct cs as [|c cs]; [discriminate|]. cbn [combine fold_left fst snd]. inversion N as [|? ? Na Nj]; subst. destruct k as [|k].
  - cbn [nth]. pose proof (set_cols_outside n js cs (fun i j => if (j =? a) && (i <? n) then nth i c 0%Qc else x i j) i a Na) as Q. unfold set_cols in Q. rewrite Q. rewrite Nat.eqb_refl. apply Nat.ltb_lt in Hi. rewrite Hi. reflexivity.
  - cbn [nth]. apply IH; auto. cbn in Hk. lia.
Qed.

Section Loop.
Variables (n : nat) (ix : label -> list nat) (extra : list nat) (par : label -> list label)
  (cols : qmat -> label -> res (list nat * list (list Qc))) (topo : list label).
Let step x v := do jc <- cols x v; Ok (set_cols n x (fst jc) (snd jc)).
Definition same_on (l : list nat) (x y : qmat) : Prop := forall i j, i < n -> In j l -> x i j = y i j.
Hypothesis Hcols : forall v x js cs, In v topo -> cols x v = Ok (js, cs) -> js = ix v /\ List.length cs = List.length (ix v).
Hypothesis Hlocal : forall v x y, In v topo -> same_on (flat_map ix (par v) ++ extra) x y -> cols x v = cols y v.
Hypothesis Hnd : forall v, In v topo -> NoDup (ix v).
Hypothesis Hdisj : forall u v j, In u topo -> In v topo -> In j (ix u) -> In j (ix v) -> u = v.
Hypothesis Hextra : forall v j, In v topo -> In j (ix v) -> ~ In j extra.
Hypothesis Ntopo : NoDup topo.
Hypothesis Htopo : forall l1 v l2, topo = l1 ++ v :: l2 -> incl (par v) l1.

Lemma step_eq x v : step x v = (do jc <- cols x v; Ok (set_cols n x (fst jc) (snd jc))).
Proof. reflexivity. Qed.

Lemma split_notin l1 v l2 : topo = l1 ++ v :: l2 -> ~ In v l1 /\ In v topo /\ incl l1 topo.
Proof.
  intros E. split; [|split].
  - intros H. rewrite E in Ntopo. apply NoDup_remove_2 in Ntopo. apply Ntopo. apply in_or_app. left. auto.
  - rewrite E. apply in_or_app. right. left. auto.
  - intros u Hu. rewrite E. apply in_or_app. left. auto.
Qed.

Lemma par_cols l1 v l2 : topo = l1 ++ v :: l2 -> forall j, In j (flat_map ix (par v)) -> In j (flat_map ix l1).
Proof. intros E j H. apply in_flat_map in H. destruct H as (u & Hu & Hj). apply in_flat_map. exists u. split; auto. apply (Htopo _ _ _ E); auto. Qed.

(** What the loop computes does not depend on the initial contents. *)
Lemma loop_same : forall l2 l1 x y, topo = l1 ++ l2 -> same_on (flat_map ix l1 ++ extra) x y ->
  match foldM step l2 x, foldM step l2 y with
  | Ok x', Ok y' => same_on (flat_map ix topo ++ extra) x' y'
  | Err e, Err e' => e = e'
  | _, _ => False
  end.
Proof.
  induction l2 as [|v l2 IH]; intros l1 x y E S; cbn [foldM].
  - rewrite app_nil_r in E. rewrite E. auto.
  - destruct (split_notin _ _ _ E) as (Nv & Iv & Il). rewrite !(step_eq _ v), (Hlocal v x y Iv).
    2:{ intros i j Hi Hj. apply S; auto. apply in_app_or in Hj. apply in_or_app. destruct Hj as [Hj|Hj]; auto. left. apply (par_cols _ _ _ E); auto. }
    destruct (cols y v) as [[js cs]|e] eqn:C; cbn [bind fst snd]; auto. destruct (Hcols v y js cs Iv C) as [-> Lc].
    apply (IH (l1 ++ [v])); [rewrite <- app_assoc; auto|]. intros i j Hi Hj. destruct (in_dec Nat.eq_dec j (ix v)) as [Hv|Hv].
    + apply (In_nth _ _ 0) in Hv. destruct Hv as (k & Hk & <-). rewrite !set_cols_inside; auto.
    + rewrite !set_cols_outside by auto. apply S; auto. rewrite flat_map_app in Hj. cbn [flat_map] in Hj. rewrite app_nil_r in Hj. apply in_or_app. apply in_app_or in Hj. destruct Hj as [Hj|Hj]; auto. apply in_app_or in Hj. destruct Hj as [Hj|Hj]; auto. contradiction.
Qed.

(** In the result every node has the values computed from the result. *)
Definition settled (x : qmat) (v : label) : Prop := exists cs, cols x v = Ok (ix v, cs) /\ List.length cs = List.length (ix v) /\
  forall i k, i < n -> k < List.length (ix v) -> x i (nth k (ix v) 0) = nth i (nth k cs []) 0%Qc.

Lemma loop_settled : forall l2 l1 x x', topo = l1 ++ l2 -> (forall v, In v l1 -> settled x v) -> foldM step l2 x = Ok x' ->
  (forall v, In v topo -> settled x' v) /\ same_on extra x x'.
Proof.
  induction l2 as [|v l2 IH]; intros l1 x x' E S F; cbn [foldM] in F.
  - injection F as <-. rewrite app_nil_r in E. rewrite E. split; auto. intros i j _ _. reflexivity.
  - destruct (split_notin _ _ _ E) as (Nv & Iv & Il). rewrite step_eq in F. destruct (cols x v) as [[js cs]|e] eqn:C; cbn [bind fst snd] in F; [|discriminate]. destruct (Hcols v x js cs Iv C) as [-> Lc].
    set (x1 := set_cols n x (ix v) cs) in *.
    assert (Keep : forall l, (forall j, In j l -> ~ In j (ix v)) -> same_on l x x1) by (intros l Hl i j _ Hj; unfold x1; rewrite set_cols_outside; auto).
    assert (Ex : same_on extra x x1) by (apply Keep; intros j Hj Hv; exact (Hextra v j Iv Hv Hj)).
    assert (Loc : forall u, In u topo -> incl (par u) l1 -> cols x u = cols x1 u).
    { intros u Iu Hp. apply Hlocal; auto. apply Keep. intros j Hj Hv. apply in_app_or in Hj. destruct Hj as [Hj|Hj]; [|exact (Hextra v j Iv Hv Hj)].
      apply in_flat_map in Hj. destruct Hj as (p & Hpu & Hj). assert (p = v) by (apply (Hdisj p v j); auto; apply Il, Hp; auto). subst p. apply Nv, Hp. auto. }
    destruct (IH (l1 ++ [v]) x1 x') as [I1 I2]; auto.
    + rewrite <- app_assoc. auto.
    + intros u Hu. apply in_app_or in Hu. destruct Hu as [Hu|[<-|[]]].
      * destruct (S u Hu) as (cu & Cu & Lu & Eu). exists cu. assert (Iu : In u topo) by auto.
        assert (Hp : incl (par u) l1). { apply in_split in Hu. destruct Hu as (a & b & ->). intros p Hp. apply in_or_app. left. apply (Htopo a u (b ++ v :: l2)); auto. rewrite E, <- app_assoc. reflexivity. }
        rewrite <- (Loc u) by auto. split; auto. split; auto. intros i k Hi Hk. rewrite <- Eu by auto. unfold x1. rewrite set_cols_outside; auto.
        intros Q. assert (u = v) by (apply (Hdisj u v (nth k (ix u) 0)); auto; apply nth_In; auto). congruence.
      * exists cs. rewrite <- (Loc v) by (auto; apply (Htopo _ _ _ E)). split; auto. split; auto. intros i k Hi Hk. unfold x1. apply set_cols_inside; auto.
    + split; auto. intros i j Hi Hj. rewrite (Ex i j), (I2 i j) by auto. reflexivity.
Qed.

(** The loop goes through if every node does. *)
Lemma loop_ok : (forall x v, In v topo -> exists jc, cols x v = Ok jc) -> forall l x, incl l topo -> exists x', foldM step l x = Ok x'.
Proof.
  intros H. induction l as [|v l IH]; intros x I; cbn [foldM]; eauto. rewrite step_eq. destruct (H x v) as (jc & E); [apply I; left; auto|]. rewrite E. cbn [bind]. apply IH. intros u Hu. apply I. right. auto.
Qed.
End Loop.
