(** * DynGenProofs: what generate_structure_dynamic returns. *)
From Coq Require Import List Bool Arith ZArith Lia String QArith Qcanon Permutation Decimal DecimalString DecimalNat DecimalPos DecimalZ.
From Verif Require Import Base Names Digraph SmModel SmProofs SmBuild BbnProofs QcX NetModel NotearsModel NotearsProofs TorchModel SklLin MapperModel GenModel GenProofs DynGenModel.
Import ListNotations.
Local Open Scope string_scope.
Local Open Scope list_scope.
Local Open Scope nat_scope.

(** ** Decimal numerals of integers and of natural numbers *)
Lemma of_lu_nat d : DecimalPos.Unsigned.of_lu d = N.of_nat (DecimalNat.Unsigned.of_lu d).
Proof. induction d; cbn [DecimalPos.Unsigned.of_lu DecimalNat.Unsigned.of_lu]; rewrite ?IHd; lia. Qed.

Lemma to_int_nat n : Z.to_int (Z.of_nat n) = Pos (Nat.to_uint n).
Proof.
  assert (E : Z.of_int (Pos (Nat.to_uint n)) = Z.of_nat n).
  { cbn [Z.of_int]. unfold Z.of_uint. rewrite DecimalPos.Unsigned.of_uint_alt, of_lu_nat, <- DecimalNat.Unsigned.of_uint_alt, DecimalNat.Unsigned.of_to. apply nat_N_Z. }
  rewrite <- E, DecimalZ.to_of. cbn [norm]. f_equal. rewrite <- DecimalNat.Unsigned.to_of, DecimalNat.Unsigned.of_to. reflexivity.
Qed.

Lemma str_of_node i : str_of (node i) = dec i.
Proof. unfold str_of, node. rewrite to_int_nat. reflexivity. Qed.

(** ** Names *)
Lemma NoDup_map_inj_on {A B} (f : A -> B) l : (forall a b, In a l -> In b l -> f a = f b -> a = b) -> NoDup l -> NoDup (map f l).
Proof.
  intros I. induction 1 as [|x l N ND IH]; cbn; constructor.
  - intros H. apply in_map_iff in H. destruct H as (y & E & Hy). apply N. rewrite (I x y); cbn; auto.
  - apply IH. intros a b Ha Hb. apply I; cbn; auto.
Qed.
Lemma slice_inj v l v' l' : slice_name v l = slice_name v' l' -> v = v' /\ l = l'.
Proof. intros [= H]. apply lag_name_inj in H. destruct H as [H ->]. apply dec_inj in H. auto. Qed.

Lemma past_In n p x : In x (past_names n p) <-> exists l v, 1 <= l <= p /\ v < n /\ x = slice_name v l.
Proof.
  unfold past_names. rewrite in_flat_map. split.
  - intros (l & Hl & H). apply in_map_iff in H. destruct H as (v & <- & Hv). apply in_seq in Hl, Hv. exists l, v. repeat split; lia || auto.
  - intros (l & v & Hl & Hv & ->). exists l. split; [apply in_seq; lia|]. apply in_map_iff. exists v. split; auto. apply in_seq. lia.
Qed.
Lemma present_In n x : In x (present_names n) <-> exists v, v < n /\ x = slice_name v 0.
Proof.
  unfold present_names. rewrite in_map_iff. split.
  - intros (v & <- & Hv). apply in_seq in Hv. exists v. split; lia || auto.
  - intros (v & Hv & ->). exists v. split; auto. apply in_seq. lia.
Qed.
Lemma past_length n p : List.length (past_names n p) = p * n.
Proof. unfold past_names. apply length_blocks. intros i. rewrite map_length, seq_length. auto. Qed.
Lemma past_nth n p l v x : 1 <= l <= p -> v < n -> nth ((l - 1) * n + v) (past_names n p) x = slice_name v l.
Proof.
  intros Hl Hv. unfold past_names. rewrite (nth_blocks (fun l => map (fun v => slice_name v l) (seq 0 n)) n).
  - rewrite nth_map_seq by auto. f_equal; lia.
  - intros i. rewrite map_length, seq_length. auto.
  - lia.
  - auto.
Qed.
Lemma present_nth n v x : v < n -> nth v (present_names n) x = slice_name v 0.
Proof. intros Hv. unfold present_names. rewrite nth_map_seq by auto. auto. Qed.

Lemma past_NoDup n p : NoDup (past_names n p).
Proof.
  unfold past_names. generalize 1 as s. induction p as [|p IH]; intros s; cbn [seq flat_map]; [constructor|]. apply NoDup_app_intro.
  - apply FinFun.Injective_map_NoDup; [|apply seq_NoDup]. intros a b H. apply slice_inj in H. tauto.
  - apply IH.
  - intros x H1 H2. apply in_map_iff in H1. destruct H1 as (v & <- & _). apply in_flat_map in H2. destruct H2 as (l & Hl & H2). apply in_seq in Hl.
    apply in_map_iff in H2. destruct H2 as (v' & E & _). apply slice_inj in E. lia.
Qed.
Lemma present_NoDup n : NoDup (present_names n).
Proof. apply FinFun.Injective_map_NoDup; [|apply seq_NoDup]. intros a b H. apply slice_inj in H. tauto. Qed.
Lemma all_NoDup n p : NoDup (past_names n p ++ present_names n).
Proof.
  apply NoDup_app_intro; [apply past_NoDup|apply present_NoDup|]. intros x H1 H2. apply past_In in H1. apply present_In in H2.
  destruct H1 as (l & v & Hl & _ & ->). destruct H2 as (v' & _ & E). apply slice_inj in E. lia.
Qed.

(** ** The inter-slice structure *)
Definition wf_idraws (rn : idraws) : Prop :=
  (forall i k j, (0 <= id_weight rn i k j /\ id_weight rn i k j <= 1)%Qc) /\ (forall r j, (0 <= id_edge rn r j /\ id_edge rn r j < 1)%Qc).

(** The weight of an edge from lag [l]: a number of the range divided by a power of the decay, or its opposite. *)
Definition decayed (w_min w_max w_decay : Qc) (l : nat) (w : Qc) : Prop :=
  exists x, (w_min <= x)%Qc /\ (x <= w_max)%Qc /\ (w = x / Qcpower w_decay (l - 1)%nat \/ w = - (x / Qcpower w_decay (l - 1)%nat))%Qc.

(** Which edges are drawn. *)
Definition drawn (rn : idraws) (n : nat) (degree : Qc) (t : string) (l i j : nat) : Prop :=
  t = "full" \/ t = "erdos-renyi" /\ (id_edge rn ((l - 1) * n + i)%nat j < degree / Q2Qc (inject_Z (Z.of_nat n)))%Qc.

Lemma range_any lo hi u : (lo <= hi -> 0 <= u /\ u <= 1 -> lo <= lo + (hi - lo) * u /\ lo + (hi - lo) * u <= hi)%Qc.
Proof.
  intros L [U0 U]. apply Qcle_minus_iff in L, U. assert (H : (0 <= (hi - lo) * u)%Qc) by (apply Qc_mul_nonneg; auto). assert (H' : (0 <= (hi - lo) * (1 - u))%Qc) by (apply Qc_mul_nonneg; auto).
  split; apply Qcle_minus_iff; [replace (lo + (hi - lo) * u + - lo)%Qc with ((hi - lo) * u)%Qc by ring|replace (hi + - (lo + (hi - lo) * u))%Qc with ((hi - lo) * (1 - u))%Qc by ring]; auto.
Qed.

Definition inter_ok (t : string) (w_min w_max : Qc) : Prop := (w_min <= w_max)%Qc /\ (t = "erdos-renyi" \/ t = "full").

Lemma generate_inter_spec rn n p degree t w_min w_max w_decay : wf_idraws rn -> 0 < n ->
  (inter_ok t w_min w_max /\ exists g (w : nat -> nat -> nat -> Qc), generate_inter rn n p degree t w_min w_max w_decay = Ok g /\ wf g /\ nodes g = past_names n p ++ present_names n /\
    (forall l i j, i < n -> decayed w_min w_max w_decay l (w l i j)) /\
    forall u v a, edge_attrs g u v = Some a <-> exists l i j, 1 <= l <= p /\ i < n /\ j < n /\ u = slice_name i l /\ v = slice_name j 0 /\ drawn rn n degree t l i j /\ w l i j <> 0%Qc /\ a = weight_attrs "unknown" (w l i j)) \/
  (~ inter_ok t w_min w_max /\ generate_inter rn n p degree t w_min w_max w_decay = Err ValueError).
Proof.
  intros [Hw _] Hn. unfold generate_inter, inter_ok. destruct (qlt w_max w_min) eqn:El.
  { right. split; auto. intros [L _]. apply qlt_iff in El. apply (Qclt_not_le _ _ El L). }
  apply qlt_false in El.
  set (b := if String.eqb t "erdos-renyi" then Ok (fun r j => indicator (qlt (id_edge rn r j) (degree / Q2Qc (inject_Z (Z.of_nat n)))%Qc)) else if String.eqb t "full" then Ok (fun _ _ => 1%Qc) else Err ValueError).
  assert (B : (exists f, b = Ok f /\ (t = "erdos-renyi" \/ t = "full") /\ forall l i j, qnz (f ((l - 1) * n + i) j) = true <-> drawn rn n degree t l i j) \/ (b = Err ValueError /\ ~ (t = "erdos-renyi" \/ t = "full"))).
  { unfold b, drawn. destruct (String.eqb_spec t "erdos-renyi") as [->|N1]; [|destruct (String.eqb_spec t "full") as [->|N2]; [|right; split; auto; intros [?|?]; congruence]].
    - left. eexists. split; [reflexivity|]. split; auto. intros l i j. unfold indicator. destruct (qlt (id_edge rn _ j) _) eqn:Eq.
      + apply qlt_iff in Eq. split; auto.
      + apply qlt_false in Eq. cbn. split; [discriminate|]. intros [?|[_ C]]; [discriminate|]. exfalso. apply (Qclt_not_le _ _ C Eq).
    - left. eexists. split; [reflexivity|]. split; auto. intros l i j. cbn. split; auto. }
  destruct B as [(f & Eb & Ht & Hf)|[Eb Ht]]; rewrite Eb; cbn [bind]; [|right; tauto].
  left. split; auto. cbv zeta.
  set (u := fun r j : nat => if qlt (id_sign rn (r / n) (r mod n) j) half then ((w_min + (w_max - w_min) * id_weight rn (r / n)%nat (r mod n)%nat j) / Qcpower w_decay (r / n)%nat * - (1))%Qc else ((w_min + (w_max - w_min) * id_weight rn (r / n)%nat (r mod n)%nat j) / Qcpower w_decay (r / n)%nat)%Qc).
  set (es := map (fun rj : nat * nat => (nth (fst rj) (past_names n p) (LStr ""), nth (snd rj) (present_names n) (LStr ""), [("weight", ANum (indicator (qnz (f (fst rj) (snd rj))) * u (fst rj) (snd rj))%Qc)]))
     (filter (fun rj => qnz (indicator (qnz (f (fst rj) (snd rj))) * u (fst rj) (snd rj))%Qc) (list_prod (seq 0 (p * n)) (seq 0 n)))).
  assert (Split : forall r, r < p * n -> exists l i, 1 <= l <= p /\ i < n /\ r = (l - 1) * n + i).
  { intros r Hr. exists (r / n + 1), (r mod n). assert (r / n < p) by (apply Nat.div_lt_upper_bound; lia). split; [lia|]. split; [apply Nat.mod_upper_bound; lia|]. replace (r / n + 1 - 1) with (r / n) by lia. rewrite Nat.mul_comm. apply Nat.div_mod. lia. }
  assert (Bound : forall l i, 1 <= l <= p -> i < n -> (l - 1) * n + i < p * n).
  { intros l i Hl Hi. replace p with (l - 1 + (p - l + 1)) by lia. rewrite Nat.mul_add_distr_r. assert (n <= (p - l + 1) * n) by nia. lia. }
  destruct (sm_new_build (past_names n p ++ present_names n) es "unknown") as (g & E & Wg & Ng & A).
  - cbn. auto.
  - apply all_NoDup.
  - unfold es. rewrite map_map. cbn [fst]. rewrite <- (map_map (fun rj : nat * nat => rj) (fun rj => (nth (fst rj) (past_names n p) (LStr ""), nth (snd rj) (present_names n) (LStr "")))). rewrite map_id.
    apply NoDup_map_inj_on.
    + intros [r j] [r' j'] H H' Eq. apply filter_In in H, H'. destruct H as [H _], H' as [H' _]. apply in_prod_iff in H, H'. destruct H as [Hr Hj], H' as [Hr' Hj']. apply in_seq in Hr, Hj, Hr', Hj'.
      cbn [fst snd] in Eq. injection Eq as E1 E2. f_equal.
      * apply (proj1 (NoDup_nth _ (LStr "")) (past_NoDup n p)); rewrite ?past_length; auto; lia.
      * apply (proj1 (NoDup_nth _ (LStr "")) (present_NoDup n)); auto; unfold present_names; rewrite map_length, seq_length; lia.
    + apply NoDup_filter, NoDup_prod; apply seq_NoDup.
  - intros x y dd H. unfold es in H. apply in_map_iff in H. destruct H as ([r j] & [= <- <- _] & H). apply filter_In in H. destruct H as [H _]. apply in_prod_iff in H. destruct H as [Hr Hj]. apply in_seq in Hr, Hj.
    split; apply in_or_app; [left|right]; apply nth_In; [rewrite past_length; lia|unfold present_names; rewrite map_length, seq_length; lia].
  - unfold es in E. rewrite map_map in E. unfold e3 in E. cbn [fst snd] in E.
    exists g, (fun l i j => u ((l - 1) * n + i) j). split; [exact E|]. split; auto. split; auto.
    assert (Dm : forall l i, i < n -> ((l - 1) * n + i) / n = l - 1 /\ ((l - 1) * n + i) mod n = i).
    { intros l i Hi. split; [rewrite Nat.div_add_l by lia; rewrite Nat.div_small by auto; lia|]. rewrite Nat.add_comm, Nat.mod_add by lia. apply Nat.mod_small. auto. }
    split.
    + intros l i j Hi. unfold decayed, u. destruct (Dm l i Hi) as [-> ->]. exists (w_min + (w_max - w_min) * id_weight rn (l - 1)%nat i j)%Qc.
      destruct (range_any w_min w_max (id_weight rn (l - 1)%nat i j) El (Hw _ _ _)) as [R1 R2]. split; auto. split; auto. destruct (qlt _ half); [right; ring|left; auto].
    + intros x y a. rewrite A. unfold es. split.
      * intros (dd & H & ->). apply in_map_iff in H. destruct H as ([r j] & [= <- <- <-] & H). apply filter_In in H. destruct H as [H Q]. apply in_prod_iff in H. destruct H as [Hr Hj]. apply in_seq in Hr, Hj.
        cbn [fst snd] in *. destruct (Split r) as (l & i & Hl & Hi & ->); [lia|]. exists l, i, j. rewrite past_nth by auto. rewrite present_nth by lia. destruct (qnz (f ((l - 1) * n + i) j)) eqn:Eq.
        -- cbn [indicator] in *. replace (1 * u ((l - 1) * n + i)%nat j)%Qc with (u ((l - 1) * n + i) j) in * by ring. apply qnz_iff in Q. apply Hf in Eq.
           split; auto. split; auto. split; [lia|]. auto.
        -- exfalso. apply qnz_iff in Q. apply Q. cbn. ring.
      * intros (l & i & j & Hl & Hi & Hj & -> & -> & Hd & Nz & ->). apply Hf in Hd. exists [("weight", ANum (u ((l - 1) * n + i) j))]. split; [|reflexivity].
        apply in_map_iff. exists ((l - 1) * n + i, j). cbn [fst snd]. rewrite past_nth, present_nth, Hd by auto. cbn [indicator]. replace (1 * u ((l - 1) * n + i)%nat j)%Qc with (u ((l - 1) * n + i) j) by ring. split; auto.
        apply filter_In. split; [apply in_prod_iff; split; apply in_seq; [split; [apply Nat.le_0_l|exact (Bound l i Hl Hi)]|lia]|]. cbn [fst snd]. rewrite Hd. cbn [indicator]. apply qnz_iff. replace (1 * u ((l - 1) * n + i)%nat j)%Qc with (u ((l - 1) * n + i) j) by ring. auto.
Qed.

(** ** The whole structure *)
Lemma now_node i : LStr (lag_name (str_of (node i)) 0) = slice_name i 0.
Proof. rewrite str_of_node. reflexivity. Qed.

Lemma add_present_nodes ns : forall g, (forall u, In u ns -> In u (nodes g)) -> fold_left add_node ns g = g.
Proof.
  induction ns as [|u ns IH]; intros g H; cbn [fold_left]; auto. rewrite add_node_present by (apply H; cbn; auto). apply IH. intros x Hx. apply H. cbn. auto.
Qed.

(** Adding weighted edges that are not there yet between nodes that are. *)
Lemma weighted_list es g : wf g -> NoDup (map fst es) ->
  (forall u v w, In (u, v, w) es -> edge_attrs g u v = None /\ In u (nodes g) /\ In v (nodes g)) ->
  exists g', add_weighted_edges_from g (map (fun e => W3 (fst (fst e)) (snd (fst e)) (snd e)) es) "weight" "unknown" [] = (g', Ok tt) /\ wf g' /\ nodes g' = nodes g /\
    (forall u v w, In (u, v, w) es -> edge_attrs g' u v = Some [("origin", AStr "unknown"); ("weight", w)]) /\
    (forall u v, ~ In (u, v) (map fst es) -> edge_attrs g' u v = edge_attrs g u v).
Proof.
  intros Wg ND H. unfold add_weighted_edges_from. replace (validate_origin "unknown") with (@Ok unit tt) by reflexivity. rewrite put_weighted_e3.
  destruct (put_list (map (fun e : label * label * aval => (fst e, [("weight", snd e)])) es) (with_origin (with_origin [] "unknown") "unknown") g) as (g' & E & W' & N' & A & B); auto.
  - rewrite map_map. cbn [fst]. auto.
  - intros u v dd I. apply in_map_iff in I. destruct I as ([uv w] & [= E <-] & I). cbn in E. subst uv. eapply H. eauto.
  - exists g'. split; auto. split; auto. split; auto. split.
    + intros u v w I. rewrite (A u v [("weight", w)]); [reflexivity|]. apply in_map_iff. exists (u, v, w). auto.
    + intros u v N. apply B. rewrite map_map. cbn [fst]. auto.
Qed.

Lemma dynamic_spec rn ri num p d1 d2 t1 t2 wi1 wi2 wo1 wo2 dec : wf_draws (Z.to_nat num) rn -> wf_idraws ri -> let n := Z.to_nat num in
  (accepted num d1 t1 wi1 wi2 /\ inter_ok t2 wo1 wo2 /\ exists gi g (w : nat -> nat -> nat -> Qc),
     generate_structure rn num d1 t1 wi1 wi2 = Ok gi /\ generate_structure_dynamic rn ri num p d1 d2 t1 t2 wi1 wi2 wo1 wo2 dec = Ok g /\
     wf g /\ nodes g = past_names n p ++ present_names n /\ (forall l i j, i < n -> decayed wo1 wo2 dec l (w l i j)) /\
     forall u v a, edge_attrs g u v = Some a <->
       (exists l i j, 1 <= l <= p /\ i < n /\ j < n /\ u = slice_name i l /\ v = slice_name j 0 /\ drawn ri n d2 t2 l i j /\ w l i j <> 0%Qc /\ a = weight_attrs "unknown" (w l i j)) \/
       (exists i j, i < n /\ j < n /\ u = slice_name i 0 /\ v = slice_name j 0 /\ edge_attrs gi (node i) (node j) = Some a)) \/
  (~ (accepted num d1 t1 wi1 wi2 /\ inter_ok t2 wo1 wo2) /\ generate_structure_dynamic rn ri num p d1 d2 t1 t2 wi1 wi2 wo1 wo2 dec = Err ValueError).
Proof.
  intros Wd Wi n. unfold generate_structure_dynamic. destruct (generate_outcome rn num d1 t1 wi1 wi2) as [(Ac & gi & Eg)|(Na & Eg)]; rewrite Eg; cbn [bind]; [|right; tauto].
  fold n. assert (Hn : 0 < n) by (destruct Ac as [L _]; unfold n; lia).
  destruct (generate_inter_spec ri n p d2 t2 wo1 wo2 dec Wi Hn) as [(Io & gx & w & Ex & Wx & Nx & Hw & Ax)|(Ni & Ex)]; rewrite Ex; cbn [bind]; [|right; tauto].
  left. split; auto. split; auto.
  destruct (generate_inv _ _ _ _ _ _ _ Eg Wd) as (F & wi & _ & _ & _ & _ & Wgi & Ngi & Agi). fold n in Ngi, Agi.
  rewrite Nx, Ngi, map_map. cbv zeta.
  assert (E0 : fold_left add_node (map (fun x => LStr (lag_name (str_of (node x)) 0)) (seq 0 n)) (fold_left add_node (past_names n p ++ present_names n) []) = fold_left add_node (past_names n p ++ present_names n) []).
  { apply add_present_nodes. intros u Hu. rewrite add_nodes_nodes by (cbn; apply all_NoDup). cbn. apply in_map_iff in Hu. destruct Hu as (i & <- & Hi). rewrite now_node. apply in_or_app. right. apply present_In. exists i. apply in_seq in Hi. split; auto; lia. }
  rewrite E0. clear E0. set (g0 := fold_left add_node (past_names n p ++ present_names n) []).
  assert (N0 : nodes g0 = past_names n p ++ present_names n) by (unfold g0; rewrite add_nodes_nodes; cbn; auto; apply all_NoDup).
  assert (W0 : wf g0) by (apply wf_add_nodes, wf_nil).
  assert (A0 : forall u v, edge_attrs g0 u v = None) by (intros u v; unfold g0; rewrite add_nodes_attrs; reflexivity).
  (* the inter-slice edges *)
  set (es1 := map (fun e : label * label * attrs => (fst e, weight_data (snd e))) (edges_data gx)).
  destruct (weighted_list es1 g0) as (g1 & E1 & W1 & N1 & P1 & Q1); auto.
  { unfold es1. rewrite map_map. cbn [fst]. apply edges_NoDup. auto. }
  { intros u v x I. split; auto. unfold es1 in I. apply in_map_iff in I. destruct I as ([[u' v'] a] & [= <- <- _] & I). apply edges_data_In in I; auto. rewrite N0. apply Ax in I. destruct I as (l & i & j & Hl & Hi & Hj & -> & -> & _).
    split; apply in_or_app; [left; apply past_In; eauto|right; apply present_In; eauto]. }
  unfold es1 in E1. rewrite map_map in E1. cbn [fst snd] in E1. rewrite E1. cbn [sm_result fst snd bind].
  (* the intra-slice edges *)
  set (es2 := map (fun e : label * label * attrs => (LStr (lag_name (str_of (fst (fst e))) 0), LStr (lag_name (str_of (snd (fst e))) 0), weight_data (snd e))) (edges_data gi)).
  assert (Sp : forall u v a, In (u, v, a) (edges_data gi) -> exists i j, i < n /\ j < n /\ u = node i /\ v = node j).
  { intros u v a I. apply edges_data_In in I; auto. assert (I' : In (u, v) (edges gi)) by (apply edges_In; eauto). apply edges_nodes in I'; auto. rewrite Ngi in I'. destruct I' as [I1 I2]. apply in_map_iff in I1, I2. destruct I1 as (i & <- & Hi), I2 as (j & <- & Hj). apply in_seq in Hi, Hj. exists i, j. repeat split; auto; lia. }
  assert (Inter : forall u v a, edge_attrs gx u v = Some a -> edge_attrs g1 u v = Some a).
  { intros u v a Ha. assert (I : In (u, v, weight_data a) es1) by (unfold es1; apply in_map_iff; exists (u, v, a); split; auto; apply edges_data_In; auto). rewrite (P1 _ _ _ I). apply Ax in Ha. destruct Ha as (l & i & j & _ & _ & _ & _ & _ & _ & _ & ->). reflexivity. }
  assert (Other : forall u v, edge_attrs gx u v = None -> edge_attrs g1 u v = None).
  { intros u v Hn0. rewrite Q1; auto. unfold es1. rewrite map_map. cbn [fst]. intros I. apply in_map_iff in I. destruct I as ([uv a] & Eq & I). cbn in Eq. subst uv. apply edges_data_In in I; auto. congruence. }
  assert (Zero : forall i v, edge_attrs g1 (slice_name i 0) v = None).
  { intros i v. apply Other. destruct (edge_attrs gx (slice_name i 0) v) as [a|] eqn:Ea; auto. apply Ax in Ea. destruct Ea as (l & i' & j & Hl & _ & _ & Eq & _). apply slice_inj in Eq. lia. }
  destruct (weighted_list es2 g1) as (g2 & E2 & W2 & N2 & P2 & Q2); auto.
  { unfold es2. rewrite map_map. cbn [fst snd].
    rewrite <- (map_map (fun e : label * label * attrs => fst e) (fun uv => (LStr (lag_name (str_of (fst uv)) 0), LStr (lag_name (str_of (snd uv)) 0)))).
    apply NoDup_map_inj_on; [|apply edges_NoDup; auto]. intros [u v] [u' v'] H H' Eq. apply in_map_iff in H, H'. destruct H as ([uv a] & Q & H), H' as ([uv' a'] & Q' & H'). cbn in Q, Q'. subst uv uv'.
    destruct (Sp _ _ _ H) as (i & j & _ & _ & -> & ->), (Sp _ _ _ H') as (i' & j' & _ & _ & -> & ->). cbn [fst snd] in Eq. rewrite !now_node in Eq. injection Eq as Q1' Q2'.
    apply lag_name_inj in Q1', Q2'. destruct Q1' as [Q1' _], Q2' as [Q2' _]. apply dec_inj in Q1', Q2'. subst. auto. }
  { intros u v x I. unfold es2 in I. apply in_map_iff in I. destruct I as ([[u' v'] a] & [= <- <- _] & I). destruct (Sp _ _ _ I) as (i & j & Hi & Hj & -> & ->). cbn [fst snd]. change (LStr (lag_name (str_of (node i)) 0)) with (LStr (lag_name (str_of (node i)) 0)). rewrite !now_node. split; auto. rewrite N1, N0. split; apply in_or_app; right; apply present_In; eauto. }
  unfold es2 in E2. rewrite map_map in E2. cbn [fst snd] in E2.
  exists gi, g2, w. split; auto. split; [rewrite E2; reflexivity|]. split; auto. split; [congruence|]. split; auto.
  intros u v a. destruct (in_dec (fun a b : label * label => ltac:(destruct a as [a1 a2], b as [b1 b2];
         destruct (label_eqb_spec a1 b1); [destruct (label_eqb_spec a2 b2); [left; congruence|right; congruence]|right; congruence])) (u, v) (map fst es2)) as [I|I].
  - apply in_map_iff in I. destruct I as ([uv x] & Eq & I). cbn in Eq. subst uv. rewrite (P2 _ _ _ I). unfold es2 in I. apply in_map_iff in I. destruct I as ([[u' v'] b] & [= <- <- <-] & I). destruct (Sp _ _ _ I) as (i & j & Hi & Hj & -> & ->). cbn [fst snd]. apply edges_data_In in I; auto.
    assert (Eb : b = [("origin", AStr "unknown"); ("weight", weight_data b)]) by (pose proof I as I'; apply Agi in I'; destruct I' as (? & ? & _ & _ & _ & _ & _ & _ & ->); reflexivity). split.
    + intros [= <-]. right. exists i, j. rewrite !str_of_node. rewrite <- Eb. auto.
    + intros [H|(i' & j' & _ & _ & Qi & Qj & H)].
      * exfalso. destruct H as (l & i' & j' & Hl & _ & _ & Q & _). rewrite now_node in Q. apply slice_inj in Q. lia.
      * rewrite now_node in Qi, Qj. apply slice_inj in Qi, Qj. destruct Qi as [-> _], Qj as [-> _]. rewrite <- Eb. congruence.
  - rewrite Q2 by auto. split.
    + intros Ha. left. apply Ax. destruct (edge_attrs gx u v) as [b|] eqn:Eb; [apply Inter in Eb; congruence|apply Other in Eb; congruence].
    + intros [H|(i & j & Hi & Hj & -> & -> & H)]; [apply Inter, Ax; auto|]. exfalso. apply I. unfold es2. rewrite map_map. cbn [fst]. apply in_map_iff. exists (node i, node j, a). cbn [fst snd]. rewrite !now_node. split; auto. apply edges_data_In; auto.
Qed.

(** All edges end in the present; those of the present form a DAG, and so does the whole. *)
Lemma dynamic_acyclic rn ri num p d1 d2 t1 t2 wi1 wi2 wo1 wo2 dec g : wf_draws (Z.to_nat num) rn -> wf_idraws ri ->
  generate_structure_dynamic rn ri num p d1 d2 t1 t2 wi1 wi2 wo1 wo2 dec = Ok g -> acyclic (edges g).
Proof.
  intros Wd Wi E. destruct (dynamic_spec rn ri num p d1 d2 t1 t2 wi1 wi2 wo1 wo2 dec Wd Wi) as [(_ & _ & gi & g' & w & Egi & Eg & Wg & _ & _ & A)|[_ Eg]]; rewrite E in Eg; [|discriminate]. injection Eg as <-.
  pose proof (generated_acyclic _ _ _ _ _ _ _ Egi Wd) as Ac. apply (acyclic_rank label_eqb label_eqb_spec) in Ac. destruct Ac as [rk Hr].
  destruct (generate_inv _ _ _ _ _ _ _ Egi Wd) as (_ & _ & _ & _ & _ & _ & Wgi & Ngi & _).
  apply (acyclic_rank label_eqb label_eqb_spec).
  exists (fun u => match find (fun i => label_eqb u (slice_name i 0)) (seq 0 (Z.to_nat num)) with Some i => S (rk (node i)) | None => 0 end).
  assert (Rk : forall i, i < Z.to_nat num -> (match find (fun k => label_eqb (slice_name i 0) (slice_name k 0)) (seq 0 (Z.to_nat num)) with Some k => S (rk (node k)) | None => 0 end) = S (rk (node i))).
  { intros i Hi. destruct (find _ _) as [k|] eqn:Ef.
    - apply find_some in Ef. destruct Ef as [_ Ef]. destruct (label_eqb_spec (slice_name i 0) (slice_name k 0)) as [Q|]; [|discriminate]. apply slice_inj in Q. destruct Q as [-> _]. auto.
    - exfalso. apply (find_none _ _ Ef i) in Hi || (assert (I : In i (seq 0 (Z.to_nat num))) by (apply in_seq; lia); specialize (find_none _ _ Ef i I) as C; cbn beta in C; destruct (label_eqb_spec (slice_name i 0) (slice_name i 0)); [discriminate|congruence]). }
  intros u v H. apply edges_In in H; auto. destruct H as (a & Ha). apply A in Ha. destruct Ha as [(l & i & j & Hl & Hi & Hj & -> & -> & _)|(i & j & Hi & Hj & -> & -> & Ha)].
  - rewrite (Rk j Hj). destruct (find _ _) as [k|] eqn:Ef; [|lia]. apply find_some in Ef. destruct Ef as [_ Ef]. destruct (label_eqb_spec (slice_name i l) (slice_name k 0)) as [Q|]; [|discriminate]. apply slice_inj in Q. lia.
  - rewrite (Rk i Hi), (Rk j Hj). assert (I : In (node i, node j) (edges gi)) by (apply edges_In; eauto). specialize (Hr _ _ I). lia.
Qed.
