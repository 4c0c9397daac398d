(** * NotearsProofs: the dual ascent loop, bounds and learned graphs. *)
From Coq Require Import List Bool Arith ZArith Lia String QArith Qcanon Permutation.
From Verif Require Import Base QcX Digraph SmModel SmProofs SmBuild NotearsModel.
Import ListNotations.
Local Open Scope string_scope.
Local Open Scope list_scope.
Local Open Scope nat_scope.

(** ** Comparisons *)
Lemma qle_iff a b : qle a b = true <-> (a <= b)%Qc.
Proof.
  unfold qle. destruct (Qclt_le_dec b a) as [H|H]; split; auto; try discriminate.
  intros X. exfalso. apply (Qclt_not_le _ _ H); auto.
Qed.
Lemma qlt_iff a b : qlt a b = true <-> (a < b)%Qc.
Proof.
  unfold qlt. destruct (Qclt_le_dec a b) as [H|H]; split; auto; try discriminate.
  intros X. exfalso. apply (Qclt_not_le _ _ X); auto.
Qed.
Lemma qlt_false a b : qlt a b = false <-> (b <= a)%Qc.
Proof. unfold qlt. destruct (Qclt_le_dec a b) as [H|H]; split; auto; try discriminate. intros X. exfalso. apply (Qclt_not_le _ _ H); auto. Qed.
Lemma qle_false a b : qle a b = false <-> (b < a)%Qc.
Proof. unfold qle. destruct (Qclt_le_dec b a) as [H|H]; split; auto; try discriminate. intros X. exfalso. apply (Qclt_not_le _ _ X); auto. Qed.

Lemma fle_not_flt a b : fle a b = true -> flt b a = false.
Proof.
  destruct a, b; cbn; try discriminate; auto. rewrite qle_iff, qlt_false. auto.
Qed.

Lemma ten_pow_lt a b : (Qcpower ten a < Qcpower ten b)%Qc <-> a < b.
Proof.
  assert (P : forall n, (0 < Qcpower ten n)%Qc).
  { induction n; cbn; [reflexivity|]. replace 0%Qc with (0 * Qcpower ten n)%Qc by ring.
    apply Qcmult_lt_compat_r; auto. reflexivity. }
  assert (S1 : forall n, (Qcpower ten n < Qcpower ten (S n))%Qc).
  { intros n. cbn. rewrite <- (Qcmult_1_l (Qcpower ten n)) at 1. apply Qcmult_lt_compat_r; auto. reflexivity. }
  assert (M : forall k n, (Qcpower ten n <= Qcpower ten (k + n))%Qc).
  { induction k; intros n; [apply Qcle_refl|]. eapply Qcle_trans; [apply IHk|]. apply Qclt_le_weak, S1. }
  split.
  - intros H. destruct (le_lt_dec b a) as [L|L]; auto. exfalso. apply (Qclt_not_le _ _ H).
    replace a with ((a - b) + b) by lia. apply M.
  - intros H. eapply Qclt_le_trans; [apply S1|]. replace b with ((b - S a) + S a) by lia. apply M.
Qed.

(** ** The inner loop *)
Section Loop.
  Variables (hf : list Qc -> fl) (opt : optimiser) (bnds : list bound).

  (** [w] is what the optimiser returned in its call number [k]. *)
  Definition returned_by (k : nat) (w : list Qc) : Prop := exists r a x, w = opt bnds r a x k.

  Definition last_call (s : st) : Prop :=
    0 < calls s /\ returned_by (calls s - 1) (w_new s) /\ h_new s = hf (w_new s).

  Lemma inner_last fuel : forall s s', inner fuel hf opt bnds s = Ok s' -> (s' = s \/ last_call s').
  Proof.
    induction fuel as [|f IH]; intros s s' H; cbn [inner] in H; destruct (_ && _); try discriminate; try (injection H as <-; auto).
    apply IH in H. destruct H as [->|H]; auto. right. split; [cbn; lia|]. split; [|reflexivity].
    cbn [calls w_new]. replace (S (calls s) - 1) with (calls s) by lia. red. eauto.
  Qed.

  Lemma inner_enters fuel s s' : rho s = Qcpower ten 0 -> h_new s = PInf -> inner fuel hf opt bnds s = Ok s' -> last_call s'.
  Proof.
    intros Hr Hh H. destruct fuel as [|f]; cbn [inner] in H; rewrite Hr, Hh in H; cbn [is_pinf] in H;
    rewrite orb_true_r, andb_true_r in H; replace (qlt (Qcpower ten 0) rho_max) with true in H by (symmetry; apply qlt_iff, ten_pow_lt; lia);
    [discriminate|].
    apply inner_last in H. destruct H as [->|H]; auto. split; [cbn; lia|]. split; [|reflexivity].
    cbn [calls w_new]. replace (S (calls s) - 1) with (calls s) by lia. red. eauto.
  Qed.

  Lemma inner_total fuel : (forall r a x k, hf (opt bnds r a x k) <> PInf) -> forall s e, rho s = Qcpower ten e -> e <= 20 -> 21 - e <= fuel ->
    exists s' e', inner fuel hf opt bnds s = Ok s' /\ rho s' = Qcpower ten e' /\ e <= e' <= 20 /\ calls s' + e <= calls s + e' + 1.
  Proof.
    intros Fi. induction fuel as [|f IH]; intros s e Hr He Hf; [lia|].
    cbn [inner]. destruct (qlt (rho s) rho_max) eqn:Q; cbn [andb].
    2:{ exists s, e. repeat split; auto; lia. }
    rewrite Hr in Q. apply qlt_iff, ten_pow_lt in Q.
    destruct (_ || _) eqn:C.
    2:{ exists s, e. repeat split; auto; lia. }
    set (w := opt _ _ _ _ _).
    destruct (flt (fscale quarter (h_cur s)) (hf w)) eqn:F.
    - edestruct (IH (mkSt (rho s * ten)%Qc (alpha s) (h_cur s) (hf w) (w_est s) w (S (calls s))) (S e)) as (s' & e' & E & Er & L & Cl); [|lia|lia|].
      + cbn [rho]. rewrite Hr. cbn [Qcpower]. apply Qcmult_comm.
      + exists s', e'. cbn [calls] in Cl. repeat split; auto; lia.
    - exists (mkSt (rho s) (alpha s) (h_cur s) (hf w) (w_est s) w (S (calls s))), e. cbn [rho calls]. split; [|repeat split; auto; lia].
      assert (Np : is_pinf (hf w) = false). { specialize (Fi (rho s) (alpha s) (w_est s) (calls s)). fold w in Fi. destruct (hf w); auto. congruence. }
      destruct f; cbn [inner h_cur h_new]; rewrite F, Np, andb_false_r; auto.
  Qed.

  (** ** The outer loop *)
  Lemma outer_result n : forall fuel tol s s' b, (last_call s \/ (rho s = Qcpower ten 0 /\ h_new s = PInf)) ->
    outer (S n) fuel hf opt bnds tol s = Ok (s', b) ->
    0 < calls s' /\ returned_by (calls s' - 1) (w_est s') /\ h_cur s' = hf (w_est s') /\ b = flt (Fin tol) (hf (w_est s')).
  Proof.
    induction n as [|n IH]; intros fuel tol s s' b I H; cbn [outer] in H; apply bind_ok in H; destruct H as (s1 & E & H);
    (assert (L : last_call s1) by (destruct I as [I|[I1 I2]]; [destruct (inner_last _ _ _ E) as [->|]; auto | eapply inner_enters; eauto]));
    cbn [h_cur] in H; destruct L as (L1 & L2 & L3); destruct (fle (h_new s1) (Fin tol)) eqn:F.
    - injection H as <- <-. cbn [calls w_est h_cur]. rewrite <- L3. repeat split; auto. symmetry. apply fle_not_flt; auto.
    - injection H as <- <-. cbn [calls w_est h_cur]. rewrite <- L3. repeat split; auto.
    - injection H as <- <-. cbn [calls w_est h_cur]. rewrite <- L3. repeat split; auto. symmetry. apply fle_not_flt; auto.
    - apply IH in H; auto. left. split; auto.
  Qed.

  Lemma outer_total n : (forall r a x k, hf (opt bnds r a x k) <> PInf) -> forall fuel tol s e, rho s = Qcpower ten e -> e <= 20 -> 21 <= fuel ->
    exists s' b e', outer n fuel hf opt bnds tol s = Ok (s', b) /\ rho s' = Qcpower ten e' /\ e <= e' <= 20 /\ calls s' + e <= calls s + e' + n.
  Proof.
    intros Fi. induction n as [|n IH]; intros fuel tol s e Hr He Hf; cbn [outer].
    - exists s, false, e. repeat split; auto; lia.
    - destruct (inner_total fuel Fi s e Hr He) as (s1 & e1 & E1 & Hr1 & L1 & C1); [lia|]. rewrite E1. cbn [bind].
      set (s2 := mkSt _ _ _ _ _ _ _).
      assert (Hr2 : rho s2 = Qcpower ten e1) by exact Hr1. assert (Hc2 : calls s2 = calls s1) by reflexivity.
      destruct (fle (h_cur s2) (Fin tol)).
      + exists s2, false, e1. repeat split; auto; lia.
      + destruct n as [|n]; [exists s2, (flt (Fin tol) (h_cur s2)), e1; repeat split; auto; lia|].
        destruct (IH fuel tol s2 e1 Hr2) as (s' & b & e' & E' & Hr' & L' & C'); try lia. exists s', b, e'. repeat split; auto; lia.
  Qed.

  (** The result of the dual ascent: the last answer of the optimiser, with a warning exactly when its
      penalty exceeds the tolerance. *)
  Theorem ascent_result fuel n len tol s b : dual_ascent fuel n len hf opt bnds tol = Ok (s, b) ->
    (n = 0 /\ calls s = 0 /\ w_est s = repeat 0%Qc len /\ b = false) \/
    (0 < n /\ 0 < calls s /\ returned_by (calls s - 1) (w_est s) /\ h_cur s = hf (w_est s) /\ b = flt (Fin tol) (hf (w_est s))).
  Proof.
    unfold dual_ascent. destruct n as [|n].
    - cbn. intros [= <- <-]. left. auto.
    - intros H. right. split; [lia|]. eapply outer_result; [|exact H]. right. auto.
  Qed.

  Theorem ascent_total fuel n len tol : (forall r a x k, hf (opt bnds r a x k) <> PInf) -> 21 <= fuel ->
    exists s b, dual_ascent fuel n len hf opt bnds tol = Ok (s, b) /\ calls s <= n + 20.
  Proof.
    intros Fi Hf. destruct (outer_total n Fi fuel tol (start len) 0) as (s & b & e & E & _ & L & C); auto; [lia|].
    exists s, b. split; auto. cbn [calls start] in C. lia.
  Qed.

  (** While the penalty is infinite the loop never ends. *)
  Lemma inner_diverges fuel : (forall r a x k, hf (opt bnds r a x k) = PInf) -> forall s, rho s = 1%Qc -> h_cur s = PInf -> h_new s = PInf ->
    inner fuel hf opt bnds s = Err OutOfFuel.
  Proof.
    intros Fi. induction fuel as [|f IH]; intros s Hr Hc Hn; cbn [inner]; rewrite Hr, Hn, Hc;
    replace (qlt 1 rho_max) with true by (symmetry; apply qlt_iff; reflexivity); cbn [is_pinf orb andb]; rewrite ?orb_true_r; auto.
    rewrite Fi. cbn [fscale flt]. apply IH; auto.
  Qed.

  Theorem ascent_diverges fuel n len tol : (forall r a x k, hf (opt bnds r a x k) = PInf) ->
    dual_ascent fuel (S n) len hf opt bnds tol = Err OutOfFuel.
  Proof. intros Fi. unfold dual_ascent. cbn [outer]. rewrite inner_diverges; auto. Qed.
End Loop.

(** ** Bounds *)
Definition in_bound (b : bound) (x : Qc) : Prop :=
  (forall l, fst b = Some l -> (l <= x)%Qc) /\ (forall u, snd b = Some u -> (x <= u)%Qc).
Definition feasible (b : bound) : Prop := exists x, in_bound b x.

(** The optimiser returns a point within the bounds, whenever there is one. *)
Definition respects_bounds (opt : optimiser) : Prop :=
  forall bnds r a x k, Forall feasible bnds -> Forall2 in_bound bnds (opt bnds r a x k).

Lemma in_fixed0 x : in_bound fixed0 x <-> x = 0%Qc.
Proof.
  unfold in_bound, fixed0. cbn. split.
  - intros [A B]. apply Qcle_antisym; auto.
  - intros ->. split; intros l [= <-]; apply Qcle_refl.
Qed.
Lemma in_nonneg x : in_bound nonneg x <-> (0 <= x)%Qc.
Proof. unfold in_bound, nonneg. cbn. split; [intros [A _]; auto|]. intros H. split; [intros l [= <-]; auto|discriminate]. Qed.
Lemma in_free x : in_bound free x.
Proof. split; discriminate. Qed.

Lemma feasible_bnd t o i j : (o = free \/ o = nonneg) -> feasible (bnd t o i j).
Proof.
  intros Ho. exists 0%Qc. unfold bnd.
  assert (Z : in_bound fixed0 0%Qc) by (apply in_fixed0; auto).
  assert (O : in_bound o 0%Qc) by (destruct Ho as [->| ->]; [apply in_free | apply in_nonneg; apply Qcle_refl]).
  repeat destruct (_ : bool); auto.
Qed.

Lemma feasible_matrix t o d : (o = free \/ o = nonneg) -> Forall feasible (bnds_matrix t o d).
Proof.
  intros Ho. apply Forall_forall. intros b H. unfold bnds_matrix in H. apply in_flat_map in H. destruct H as (i & _ & H).
  apply in_map_iff in H. destruct H as (j & <- & _). apply feasible_bnd; auto.
Qed.

(** ** Row-major matrices *)
Lemma nth_blocks {A} (f : nat -> list A) d x : (forall i, List.length (f i) = d) ->
  forall n s i j, i < n -> j < d -> nth (i * d + j) (flat_map f (seq s n)) x = nth j (f (s + i)) x.
Proof.
  intros L. induction n as [|n IH]; intros s i j Hi Hj; [lia|]. cbn [seq flat_map]. destruct i as [|i].
  - cbn. rewrite app_nth1 by (rewrite L; lia). replace (s + 0) with s by lia. auto.
  - rewrite app_nth2 by (rewrite L; cbn; lia). rewrite L. replace (S i * d + j - d) with (i * d + j) by (cbn; lia).
    rewrite IH by lia. f_equal. f_equal. lia.
Qed.

Lemma nth_map_seq {A} (f : nat -> A) d s j x : j < d -> nth j (map f (seq s d)) x = f (s + j).
Proof.
  revert s j. induction d as [|d IH]; intros s j H; [lia|]. cbn. destruct j as [|j]; [f_equal; lia|]. rewrite IH by lia. f_equal. lia.
Qed.

Lemma bnds_entry t o d i j x : i < d -> j < d -> nth (i * d + j) (bnds_matrix t o d) x = bnd t o i j.
Proof.
  intros Hi Hj. unfold bnds_matrix. rewrite (nth_blocks (fun i => map (fun j => bnd t o i j) (seq 0 d)) d).
  - cbn [plus]. rewrite nth_map_seq; auto.
  - intros k. rewrite map_length, seq_length. auto.
  - auto.
  - auto.
Qed.

Lemma length_blocks {A} (f : nat -> list A) d : (forall i, List.length (f i) = d) -> forall n s, List.length (flat_map f (seq s n)) = n * d.
Proof. intros L. induction n; intros s; cbn; auto. rewrite app_length, L, IHn. auto. Qed.

Lemma bnds_length t o d : List.length (bnds_matrix t o d) = d * d.
Proof. unfold bnds_matrix. apply length_blocks. intros i. rewrite map_length, seq_length. auto. Qed.

Lemma Forall2_nth {A B} (R : A -> B -> Prop) l l' n x y : Forall2 R l l' -> n < List.length l -> R (nth n l x) (nth n l' y).
Proof. intros F. revert n. induction F; intros n Hn; cbn in *; [lia|]. destruct n; auto. apply IHF. lia. Qed.

Lemma index_lt d i j : i < d -> j < d -> i * d + j < d * d.
Proof. intros. nia. Qed.

(** ** The graph of a matrix *)
Lemma node_inj i j : node i = node j -> i = j.
Proof. unfold node. intros [= H]. lia. Qed.

Lemma cells_In d i j : In (i, j) (cells d) <-> i < d /\ j < d.
Proof. unfold cells. rewrite in_prod_iff, !in_seq. lia. Qed.

Lemma NoDup_prod {A B} (l : list A) (m : list B) : NoDup l -> NoDup m -> NoDup (list_prod l m).
Proof.
  intros Hl Hm. induction l as [|a l IH]; cbn; [constructor|]. apply NoDup_cons_iff in Hl. destruct Hl as [N Hl].
  assert (G : forall (x y : list (A * B)), NoDup x -> NoDup y -> (forall e, In e x -> ~ In e y) -> NoDup (x ++ y)).
  { clear. induction x as [|e x IH]; cbn; auto. intros y Hx Hy D. apply NoDup_cons_iff in Hx. destruct Hx. constructor.
    - rewrite in_app_iff. intros [?|?]; [auto|]. apply (D e); auto.
    - apply IH; auto. }
  apply G; auto.
  - apply FinFun.Injective_map_NoDup; auto. intros u v [= ->]. auto.
  - intros [u v] Hi Hj. apply in_map_iff in Hi. destruct Hi as (z & [= <- <-] & _). apply in_prod_iff in Hj. tauto.
Qed.

Lemma qnz_iff x : qnz x = true <-> x <> 0%Qc.
Proof.
  unfold qnz. rewrite negb_true_iff. split.
  - intros H ->. unfold Qc_eq_bool in H. destruct (Qc_eq_dec 0 0); congruence.
  - intros N. unfold Qc_eq_bool. destruct (Qc_eq_dec x 0); congruence.
Qed.

Lemma NoDup_map_filter {A B} (f : A -> B) p l : (forall a b, f a = f b -> a = b) -> NoDup l -> NoDup (map f (filter p l)).
Proof. intros I H. apply FinFun.Injective_map_NoDup; auto. apply NoDup_filter; auto. Qed.

Definition weight_attrs (o : string) (w : Qc) : list (string * aval) := [("origin", AStr o); ("weight", ANum w)].

Lemma matrix_graph d w : List.length w = d * d -> exists g, sm_of_matrix d w = Ok g /\ wf g /\ nodes g = map node (seq 0 d) /\
  (forall u v a, edge_attrs g u v = Some a <->
     exists i j, i < d /\ j < d /\ u = node i /\ v = node j /\ entry d w i j <> 0%Qc /\ a = weight_attrs "unknown" (entry d w i j)).
Proof.
  intros L. unfold sm_of_matrix. rewrite L, Nat.eqb_refl.
  set (es := map (fun ij : nat * nat => (node (fst ij), node (snd ij), [("weight", ANum (entry d w (fst ij) (snd ij)))]))
       (filter (fun ij => qnz (entry d w (fst ij) (snd ij))) (cells d))).
  destruct (sm_new_build (map node (seq 0 d)) es "unknown") as (g & E & W & N & A).
  - cbn. auto.
  - apply FinFun.Injective_map_NoDup; [intros a b; apply node_inj | apply seq_NoDup].
  - unfold es. rewrite map_map. cbn [fst]. apply NoDup_map_filter.
    + intros [a b] [c e]. cbn. intros [= H1 H2]. apply Nat2Z.inj in H1, H2. congruence.
    + unfold cells. apply NoDup_prod; apply seq_NoDup.
  - intros u v dd H. unfold es in H. apply in_map_iff in H. destruct H as ([i j] & [= <- <- _] & H). apply filter_In in H.
    destruct H as [H _]. apply cells_In in H. split; apply in_map, in_seq; lia.
  - unfold es in E. rewrite map_map in E. unfold e3 in E. cbn [fst snd] in E. exists g. split; auto. split; auto. split; auto.
    intros u v a. rewrite A. unfold es. split.
    + intros (dd & H & ->). apply in_map_iff in H. destruct H as ([i j] & [= <- <- <-] & H). apply filter_In in H.
      destruct H as [H Q]. apply cells_In in H. apply qnz_iff in Q. cbn [fst snd] in *. exists i, j. repeat split; tauto || auto.
    + intros (i & j & Hi & Hj & -> & -> & Q & ->). exists [("weight", ANum (entry d w i j))]. split; auto.
      apply in_map_iff. exists (i, j). split; auto. apply filter_In. split; [apply cells_In; auto|]. apply qnz_iff; auto.
Qed.
