(** * DynoNamed: how well DYNOTEARS fits, for time series given as data frames. *)
From Coq Require Import List Bool Arith ZArith Lia String QArith Qcanon Qreals Reals Lra Relations.
From Coquelicot Require Import Coquelicot.
From Verif Require Import Base Names QcX Digraph SmModel SmProofs NotearsModel NotearsProofs NotearsThms TransModel MapperModel DynoModel DynoProofs DynoThms AcycModel AcycProofs AcycThms AcycLink DynoLoss.
From Verif Require Import ObjModel ObjProofs ObjGrad ObjLasso PropsObj ObjUnits PropsObjMore ObjFit FitLink FitDyno OrdProofs FitBound FitBest FitBestDyno FirstAnswer AscentApi.
Import ListNotations.
Local Open Scope string_scope.
Local Open Scope list_scope.
Local Open Scope nat_scope.

(** ** Specification *)

(** The lagged data of the series [l], as C27 describes them: the rows of the present and those of the [p] periods before. *)
Definition lagged_data (l : list series) (p : nat) (X Xlags : mat) : Prop :=
  let d := List.length (variables l) in
  exists rs rl, ddt_transform (mkDdt p (Some (variables l)) false) l = Ok (Arrays rs rl) /\ X = mkMat d (map (map Fin) rs) /\ Xlags = mkMat (p * d) (map (map Fin) rl).

(** ** Proofs *)
Lemma dyn_box_ext d p may may' q x : (forall k i j, i < d -> j < d -> (may k i j <-> may' k i j)) -> dyn_box d p may q x <-> dyn_box d p may' q x.
Proof. intros E. split; intros [P H]; (split; [exact P|]); intros k b i j Hk Hb Hi Hj Q N; apply (H k b i j); auto; rewrite E in *; auto. Qed.

Lemma lag_allowed_ext d p may may' E : (forall k i j, i < d -> j < d -> (may k i j <-> may' k i j)) -> lag_allowed d p may E -> lag_allowed d p may' E.
Proof. intros H A k i j Hk Hi Hj N. apply A; auto. rewrite H; auto. Qed.

(** Two graphs of the same effects, with names for variables and lags. *)
Lemma dgraph_renamed g g' d p name name' o o' w keep : dgraph_of g d p name o w keep -> dgraph_of g' d p name' o' w keep ->
  (forall i k j m, i < d -> j < d -> name' i k = name' j m -> i = j /\ k = m) -> Digraph.acyclic (edges g) -> Digraph.acyclic (edges g').
Proof.
  intros (_ & G & _) (_ & G' & _) Inj A.
  assert (Q : forall u v, path (edges g') u v -> exists k i j, k <= p /\ i < d /\ j < d /\ u = name' i k /\ v = name' j 0 /\ path (edges g) (name i k) (name j 0)).
  { intros u v P. induction P as [u v H|u v z H P IH]; apply G' in H; destruct H as (k & i & j & Hk & Hi & Hj & -> & -> & K);
      assert (I : In (name i k, name j 0) (edges g)) by (apply G; exists k, i, j; auto 10).
    - exists k, i, j. repeat split; auto. apply path_one. exact I.
    - destruct IH as (k' & i' & j' & Hk' & Hi' & Hj' & E & -> & P'). apply Inj in E; auto. destruct E as [<- <-].
      exists k, i, j'. repeat split; auto. eapply path_step; eauto. }
  intros u P. destruct (Q u u P) as (k & i & j & Hk & Hi & Hj & -> & E & P'). apply Inj in E; auto. destruct E as [<- ->]. exact (A _ P').
Qed.

Section Series.
  Variables (fuel : nat) (opt : optimiser) (eh : penalty) (l : list series) (p : nat) (par : params) (t : dtabu string) (X Xlags : mat).
  Let d := List.length (variables l).
  Let n := List.length (m_rows X).
  Let name := cname (variables l).
  Let may := open_lag t name.
  Hypothesis Hm : 0 < max_iter par.
  Hypothesis ND : NoDup (variables l).
  Hypothesis Dt : lagged_data l p X Xlags.

  Lemma series_numbers g b : learn_pandas_dynamic fuel opt eh l p par t = Ok (g, b) ->
    m_cols X = d /\ m_cols Xlags / d = p /\ exists tz g0, (forall k i j, i < d -> j < d -> (open_lag tz Z.of_nat k i j <-> may k i j)) /\
      learn_numpy_dynamic fuel opt eh X Xlags par tz = Ok (g0, b) /\ (forall o w keep, dgraph_of g0 d p dname o w keep -> dgraph_of g d p (pname (variables l)) "learned" w keep).
  Proof.
    intros H. destruct (pandas_dynamic_states _ _ _ _ _ _ _ _ _ ND H) as (rs & rl & tz & g0 & Ed & Et & El & _ & T). destruct Dt as (rs' & rl' & Ed' & EX & EL).
    rewrite Ed in Ed'. injection Ed' as <- <-. fold d in El, T, EX, EL. rewrite <- EX, <- EL in El.
    destruct (numpy_dynamic_states _ _ _ _ _ _ _ _ _ El) as (Hd & _). assert (Ec : m_cols X = d) by (rewrite EX; reflexivity). assert (Ek : m_cols Xlags = p * d) by (rewrite EL; reflexivity).
    rewrite Ec in Hd. split; [exact Ec|]. split; [rewrite Ek; apply Nat.div_mul; lia|]. exists tz, g0. split; [|split; [exact El|exact T]].
    intros k i j Hi Hj. apply open_lag_named; auto.
  Qed.

  Theorem series_best g b lw la eps delta : learn_pandas_dynamic fuel opt eh l p par t = Ok (g, b) -> (0 <= lw)%R -> (0 <= la)%R ->
    near_optimiser (2 * (p + 1) * (d * d)) (dyn_box d p may) (dyn_func n d p (data X) (data Xlags) lw la) eps opt ->
    (forall bnds r q x k wa, (0 < r)%Qc -> (0 <= q)%Qc -> reshape_wa (opt bnds r (Fin q) x k) d p = Ok wa -> penalty_close delta eh d (fst wa)) ->
    exists E, dgraph_of g d p (pname (variables l)) "learned" E (keep_ge (w_threshold par)) /\ lag_allowed d p may (fun k i j => realq (E k i j)) /\
      (forall V, lag_allowed d p may V -> dag d (V 0) -> (dyn_cost X Xlags p lw la (fun k i j => realq (E k i j)) <= dyn_cost X Xlags p lw la V + eps)%R) /\
      (reachable (half_mse n d (data X) (fun _ _ => 0%R)) eps delta par ->
        b = false /\ ((0 <= w_threshold par)%Qc -> excludes d (realq (w_threshold par)) (realq (h_tol par) + delta) -> Digraph.acyclic (edges g))).
  Proof.
    intros H Hw Ha Op Cl. destruct (series_numbers _ _ H) as (Ec & Ep & tz & g0 & M & El & T).
    pose proof (dynamic_best fuel opt eh X Xlags par tz g0 b lw la eps delta Hm El Hw Ha) as B. cbv zeta in B. rewrite Ec, Ep in B. fold n in B.
    assert (M' : forall k i j, i < d -> j < d -> (may k i j <-> open_lag tz Z.of_nat k i j)) by (intros; symmetry; auto).
    destruct B as (E & G & Al & Be & Re).
    - eapply near_ext; [|exact Op]. intros q x Hq. apply dyn_box_ext. exact M'.
    - exact Cl.
    - exists E. pose proof (T _ _ _ G) as G'. split; [exact G'|]. split; [eapply lag_allowed_ext; [exact M|exact Al]|]. split.
      + intros V AV DV. apply Be; auto. eapply lag_allowed_ext; [exact M'|exact AV].
      + intros Rr. destruct (Re Rr) as [Eb Ac]. split; [exact Eb|]. intros Ht Ex. eapply (dgraph_renamed g0 g); [exact G|exact G'| |exact (Ac Ht Ex)].
        intros i k j m Hi Hj. apply pname_inj; auto.
  Qed.

  Theorem series_learned g lw la : from_pandas_dynamic fuel opt eh l p par t = Ok g -> (0 <= lw)%R -> (0 <= la)%R ->
    (forall w, is_finite (eh d w) = true) -> no_loop d (may 0) ->
    exact_optimiser (2 * (p + 1) * (d * d)) (dyn_box d p may) (dyn_func n d p (data X) (data Xlags) lw la) opt ->
    exists E, dgraph_of g d p (pname (variables l)) "learned" E (keep_ge (w_threshold par)) /\ (forall k i j, k <= p -> i < d -> j < d -> ~ may k i j -> E k i j = 0%Qc) /\
      (forall k i j, k <= p -> i < d -> j < d -> may k i j ->
         optimal_weight (if k =? 0 then lw else la) (total n (fun r => lagged X Xlags k r i * unexplained X Xlags p (fun k i j => realq (E k i j)) r j)%R / INR n) (realq (E k i j))).
  Proof.
    intros H Hw Ha Fi NL Ex. unfold from_pandas_dynamic in H. apply bind_ok in H. destruct H as ([g' b] & H & [= <-]).
    destruct (series_numbers _ _ H) as (Ec & Ep & tz & g0 & M & El & T).
    assert (M' : forall k i j, i < d -> j < d -> (may k i j <-> open_lag tz Z.of_nat k i j)) by (intros; symmetry; auto).
    assert (E0 : from_numpy_dynamic fuel opt eh X Xlags par tz = Ok g0) by (unfold from_numpy_dynamic; rewrite El; reflexivity).
    pose proof (dynamic_learned fuel opt eh X Xlags par tz g0 lw la Hm E0 Hw Ha) as B. cbv zeta in B. rewrite Ec, Ep in B. fold n in B.
    destruct B as (E & G & B1 & B2).
    - exact Fi.
    - eapply no_loop_ext; [|exact NL]. intros i j Hi Hj. apply M'; auto.
    - eapply exact_ext; [|exact Ex]. intros q x Hq. apply dyn_box_ext. exact M'.
    - exists E. split; [exact (T _ _ _ G)|]. split.
      + intros k i j Hk Hi Hj N. apply B1; auto. rewrite M; auto.
      + intros k i j Hk Hi Hj O. apply B2; auto. rewrite M; auto.
  Qed.
End Series.
