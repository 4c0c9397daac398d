(** * BbnModel: model of causalnex/ebaybbn (bbn.py, utils.py, graph.py).

    Simplifications, all of them local:
    - graph nodes are identified by the variable they introduce; the Python node name
      (the factor's [__name__]) is kept as [fname] and used where the code compares names;
    - floating point numbers are exact rationals [Qc];
    - Python sets whose iteration order can be observed are lists whose order is chosen by the
      oracles of [sched]; theorems quantify over all of them;
    - logging and the unused [_sensitivity_flag], [initial_likelihoods], graphviz output are left out. *)
From Coq Require Import List Bool Arith ZArith Lia String QArith Qcanon.
From Verif Require Import Base.
Import ListNotations.
Local Open Scope list_scope.

(** bbn.py:85-86: variable names are strings *)
Notation var := string (only parsing).
(** bbn.py:120: the values of a domain *)
Notation value := label (only parsing).

(** A node function: its [__name__], its argument names and what it returns or raises.
    bbn.py:772-809 (make_node_func) and inference.py:278-320 both build such functions. *)
Record factor := mkFactor {
  fname : string;
  fargs : list var;
  ffun : list value -> res Qc
}.

(** ** utils.py:73-94 get_original_factors *)

(** The body of the inner loop: utils.py:90-93. *)
Definition gof_step (orig : list (var * factor)) (f : factor) : list (var * factor) :=
  match filter (fun a => negb (dhas String.eqb orig a)) (fargs f) with
  | [a] => dset String.eqb orig a f
  | _ => orig
  end.

(** One run of the [for] loop: utils.py:89. *)
Definition gof_pass (orig : list (var * factor)) (fs : list factor) : list (var * factor) :=
  fold_left gof_step fs orig.

(** The [while] loop: utils.py:87-94.  It never ends for a cyclic set of factors; fuel marks that. *)
Fixpoint gof_loop (fuel : nat) (fs : list factor) (orig : list (var * factor))
  : res (list (var * factor)) :=
  if List.length orig <? List.length fs then
    match fuel with
    | O => Err OutOfFuel
    | S n => gof_loop n fs (gof_pass orig fs)
    end
  else Ok orig.

(** utils.py:73-94 *)
Definition get_original_factors (fs : list factor) : res (list (var * factor)) :=
  gof_loop (List.length fs) fs [].

(** ** bbn.py:722-769 build_bbn *)

(** A BBN node: the variable it introduces, its factor and its parents (as variables, in the
    order of the factor's arguments). (bbn.py:57-61 and graph.py:41-45) *)
Record bnode := mkNode { nvar : var; nfac : factor; nparents : list var }.

(** bbn.py:67-86 *)
Record bbn := mkBbn { bnodes : list bnode; bdomains : list (var * list value) }.

(** [factor_nodes[factor.__name__] = bbn_node]: bbn.py:740-744. *)
Definition factor_nodes (fs : list factor) : list factor :=
  map snd (fold_left (fun d f => dset String.eqb d (fname f) f) fs []).

(** bbn.py:757-765: the parents of a factor node are the original factors of its arguments,
    other than itself ([!=] is identity of nodes, which have distinct names here). *)
Definition node_parents (orig : list (var * factor)) (f : factor) : res (list var) :=
  do ps <- mapM (fun a => match dget String.eqb orig a with
                          | Some g => Ok (a, g)
                          | None => Err KeyError
                          end) (fargs f);
  Ok (map fst (filter (fun p => negb (String.eqb (fname (snd p)) (fname f))) ps)).

(** bbn.py:722-769; the arguments are the functions themselves, line 730-738 only unpacks a list *)
Definition build_bbn (fs : list factor) (domains : list (var * list value)) : res bbn :=
  let fns := factor_nodes fs in
  do orig <- get_original_factors fns;
  do nodes <- mapM (fun vf => do ps <- node_parents orig (snd vf);
                              Ok (mkNode (fst vf) (snd vf) ps)) orig;
  Ok (mkBbn nodes domains).

(** bbn.py:120, 215, 237 [bbn.domains.get(variable, [True, False])]; [True == 1] and [False == 0]. *)
Definition domain_of (b : bbn) (v : var) : list value :=
  match dget String.eqb (bdomains b) v with
  | Some d => d
  | None => [LInt 1; LInt 0]
  end.

(** ** bbn.py:107-123 validate_keyvals *)
Fixpoint validate_keyvals (b : bbn) (kwds : list (var * value)) : res unit :=
  match kwds with
  | [] => Ok tt
  | (k, v) :: rest =>
      if smem k (map nvar (bnodes b)) then
        if lmem v (domain_of b k) then validate_keyvals b rest
        else Err (VariableValueNotInDomainError k)
      else Err (VariableNotInGraphError k)
  end.

(** ** Undirected graphs: node -> neighbour list, in insertion order. *)
(** graph.py:51-63 *)
Definition ugraph := list (var * list var).

(** graph.py:51-54 *)
Definition nbrs (g : ugraph) (v : var) : list var :=
  match dget String.eqb g v with Some l => l | None => [] end.

(** graph.py:60-63 *)
Definition unodes (g : ugraph) : list var := map fst g.

(** [g[v].neighbours.append(w)] (bbn.py:837-838, 852, 854, 934-935) *)
Definition add_nbr (g : ugraph) (v w : var) : ugraph :=
  map (fun p => if String.eqb (fst p) v then (fst p, snd p ++ [w]) else p) g.

(** bbn.py:822-841 make_undirected_copy *)
Definition make_undirected_copy (ns : list bnode) : ugraph :=
  fold_left
    (fun g n => fold_left (fun g p => add_nbr (add_nbr g (nvar n) p) p (nvar n)) (nparents n) g)
    ns (map (fun n => (nvar n, [])) ns).

(** bbn.py:850-854, the body for one pair of parents. *)
Definition marry (g : ugraph) (pq : var * var) : ugraph :=
  let (p1, p2) := pq in
  let g1 := if smem p1 (nbrs g p2) then g else add_nbr g p2 p1 in
  if smem p2 (nbrs g1 p1) then g1 else add_nbr g1 p1 p2.

(** bbn.py:844-855 make_moralized_copy *)
Definition make_moralized_copy (gu : ugraph) (ns : list bnode) : ugraph :=
  fold_left (fun g n => fold_left marry (pairs2 (nparents n)) g) ns gu.

(** bbn.py:858-878 priority_func: number of missing arcs in the cluster of [v].  The assertion
    that adjacency is symmetric is kept. *)
Definition introduced_arcs (g : ugraph) (v : var) : res nat :=
  foldM (fun n ab =>
           let (a, b) := (ab : var * var) in
           if smem a (nbrs g b) then Ok n
           else if smem b (nbrs g a) then Err AssertionError else Ok (S n))
        (pairs2 (v :: nbrs g v)) O.

(** bbn.py:881-886 and 930 construct_priority_queue, [pq[0]]: the smallest entry
    [[introduced arcs, 2, name]].  The heap is modelled by the minimum it returns. *)
Definition pq_entry_leb (x y : nat * string * var) : bool :=
  let '(a, n, _) := x in let '(b, m, _) := y in
  if a <? b then true else if b <? a then false else sleb n m.

(** bbn.py:881-886: what a heap has at position 0 *)
Fixpoint pq_min (best : nat * string * var) (l : list (nat * string * var)) : nat * string * var :=
  match l with
  | [] => best
  | x :: xs => pq_min (if pq_entry_leb best x then best else x) xs
  end.

(** bbn.py:924-930 *)
Definition select_node (name_of : var -> string) (g : ugraph) : res var :=
  do pq <- mapM (fun v => do k <- introduced_arcs g v; Ok (k, name_of v, v)) (unodes g);
  match pq with
  | [] => Err IndexError
  | x :: xs => Ok (snd (pq_min x xs))
  end.

(** bbn.py:931-938: connect the cluster (in gm_; the copy of the arcs in gm is never read again). *)
Definition connect_pair (g : ugraph) (ab : var * var) : ugraph :=
  let (a, b) := ab in
  if smem a (nbrs g b) then g else add_nbr (add_nbr g b a) a b.

(** [neighbour.neighbours.remove(v)]: removes the first occurrence. (bbn.py:945) *)
Fixpoint remove_first (v : var) (l : list var) : list var :=
  match l with
  | [] => []
  | x :: xs => if String.eqb x v then xs else x :: remove_first v xs
  end.

(** bbn.py:944-946: remove v from its neighbours and from the graph. *)
Definition remove_node (g : ugraph) (v : var) : ugraph :=
  let ns := nbrs g v in
  filter (fun p => negb (String.eqb (fst p) v))
         (map (fun p => if smem (fst p) ns then (fst p, remove_first v (snd p)) else p) g).

(** bbn.py:889-896 record_cliques; a clique is the list of its variables (a set in Python). *)
Definition subset_of (a b : list var) : bool := forallb (fun x => smem x b) a.

(** bbn.py:889-897 *)
Definition record_cliques (cliques : list (list var)) (cluster : list var) : list (list var) :=
  if existsb (subset_of cluster) cliques then cliques else cliques ++ [cluster].

(** bbn.py:899-948 triangulate: cliques and elimination ordering.  Each round removes a node, so
    the number of nodes is enough fuel. *)
Fixpoint triangulate_loop (fuel : nat) (name_of : var -> string) (g : ugraph)
         (cliques : list (list var)) (order : list var) : res (list (list var) * list var) :=
  match unodes g with
  | [] => Ok (cliques, order)
  | _ =>
      match fuel with
      | O => Err OutOfFuel
      | S n =>
          do v <- select_node name_of g;
          let cluster := v :: nbrs g v in
          let g1 := fold_left connect_pair (pairs2 cluster) g in
          triangulate_loop n name_of (remove_node g1 v)
                           (record_cliques cliques cluster) (order ++ [v])
      end
  end.

(** bbn.py:899-948 *)
Definition triangulate (name_of : var -> string) (gm : ugraph) : res (list (list var) * list var) :=
  triangulate_loop (List.length gm) name_of gm [] [].

(** ** Join tree *)

(** bbn.py:608-630 SepSet between cliques number [ssx] and [ssy]. *)
Record sepset := mkSep { ssx : nat; ssy : nat; sslabel : list var }.

(** bbn.py:611-613, 991: the intersection of two sets *)
Definition inter (a b : list var) : list var := filter (fun x => smem x b) a.

(** bbn.py:615-617 *)
Definition mass (s : sepset) : nat := List.length (sslabel s).

(** [2 ** len(X.nodes) + 2 ** len(Y.nodes)] (bbn.py:619-630) *)
Definition cost (cl : list (list var)) (s : sepset) : nat :=
  2 ^ List.length (nth (ssx s) cl []) + 2 ^ List.length (nth (ssy s) cl []).

(** bbn.py:990-992 *)
Definition all_sepsets (cl : list (list var)) : list sepset :=
  flat_map (fun ij => let (i, j) := (ij : nat * nat) in
              match inter (nth i cl []) (nth j cl []) with
              | [] => []
              | l => [mkSep i j l]
              end) (pairs2 (seq 0 (List.length cl))).

(** The choices Python leaves to set iteration order: [tie] orders the set of candidate separators
    before the sort by (-mass, cost) (it also stands for the third sort key, the separator's repr,
    which depends on set order itself); [vis] orders the neighbours of a clique; its first argument
    tells the loops apart (0 collect, 1 and 2 the two loops of distribute). (bbn.py:509-516, 996-997) *)
Record sched := mkSched {
  tie : list sepset -> list sepset;
  vis : nat -> nat -> list nat -> list nat
}.

(** bbn.py:996-997 *)
Definition sep_leb (cl : list (list var)) (s t : sepset) : bool :=
  if mass t <? mass s then true
  else if mass s <? mass t then false
  else cost cl s <=? cost cl t.

(** A tree of the forest: its cliques in the order of [tree.nodes]. (bbn.py:190-201) *)
Definition tree := list nat.

(** bbn.py:640-643, 664-665 *)
Definition tree_of (forest : list tree) (i : nat) : res tree :=
  match filter (fun t => existsb (Nat.eqb i) t) forest with
  | [t] => Ok t
  | _ => Err AssertionError
  end.

(** bbn.py:644: [is not], see insertable below *)
Definition same_tree (t u : tree) : bool :=
  match t, u with
  | x :: _, y :: _ => Nat.eqb x y
  | _, _ => false
  end.

(** bbn.py:632-646 insertable.  Trees of a forest are non-empty and disjoint, so that two of them
    are the same object exactly when their first cliques agree. *)
Definition insertable (forest : list tree) (s : sepset) : res bool :=
  do tx <- tree_of forest (ssx s);
  do ty <- tree_of forest (ssy s);
  Ok (negb (same_tree tx ty)).

(** bbn.py:648-690 insert: the Y tree is appended to the X tree and dropped. *)
Definition insert_sep (forest : list tree) (s : sepset) : res (list tree) :=
  do tx <- tree_of forest (ssx s);
  do ty <- tree_of forest (ssy s);
  Ok (flat_map (fun t =>
        if same_tree t tx then [tx ++ filter (fun i => negb (existsb (Nat.eqb i) tx)) ty]
        else if same_tree t ty then [] else [t]) forest).

(** bbn.py:999-1005: the first insertable candidate. *)
Fixpoint first_insertable (forest : list tree) (deco : list sepset) : res (option sepset) :=
  match deco with
  | [] => Ok None
  | s :: rest =>
      do ok <- insertable forest s;
      if ok then Ok (Some s) else first_insertable forest rest
  end.

(** bbn.py:1003: the separator to remove from the set *)
Definition sep_eqb (s t : sepset) : bool := Nat.eqb (ssx s) (ssx t) && Nat.eqb (ssy s) (ssy t).

(** bbn.py:993-1005 the while loop.  When candidates are left but none is insertable Python loops
    for ever: [OutOfFuel]. *)
Fixpoint kruskal (fuel : nat) (sc : sched) (cl : list (list var)) (S : list sepset)
         (forest : list tree) (inserted : list sepset) : res (list tree * list sepset) :=
  if List.length inserted <? List.length cl - 1 then
    match fuel with
    | O => Err OutOfFuel
    | Datatypes.S n =>
        let deco := isort (sep_leb cl) (tie sc S) in
        match deco with
        | [] => Err IndexError
        | _ =>
            do c <- first_insertable forest deco;
            match c with
            | Some s =>
                do forest' <- insert_sep forest s;
                kruskal n sc cl (filter (fun t => negb (sep_eqb s t)) S) forest' (inserted ++ [s])
            | None => kruskal n sc cl S forest inserted
            end
        end
    end
  else Ok (forest, inserted).

(** The join tree: cliques by number, the order of [clique_nodes], and the separators. (bbn.py:190-201) *)
Record jtree := mkJt { jcliques : list (list var); jorder : list nat; jseps : list sepset }.

(** bbn.py:58-61: the name of a node is the name of its function *)
Definition name_in (ns : list bnode) (v : var) : string :=
  match find (fun n => String.eqb (nvar n) v) ns with
  | Some n => fname (nfac n)
  | None => EmptyString
  end.

(** bbn.py:951-1009 build_join_tree *)
Definition build_join_tree (sc : sched) (ns : list bnode) : res jtree :=
  let gu := make_undirected_copy ns in
  let gm := make_moralized_copy gu ns in
  do co <- triangulate (name_in ns) gm;
  let cl := fst co in
  do fi <- kruskal (List.length cl) sc cl (all_sepsets cl)
                   (map (fun i => [i]) (seq 0 (List.length cl))) [];
  match fst fi with
  | [t] => Ok (mkJt cl t (snd fi))
  | _ => Err AssertionError
  end.

(** ** Potentials *)

(** Truth table: key (variable, value) pairs in the order of the sorted variable names. (bbn.py:217-219) *)
Notation key := (list (var * value)) (only parsing).
(** bbn.py:206-220 *)
Notation table := (list (key * Qc)) (only parsing).

(** bbn.py:217-219: comparing the keys of a dictionary *)
Definition pair_eqb (x y : var * value) : bool :=
  String.eqb (fst x) (fst y) && label_eqb (snd x) (snd y).

(** bbn.py:217-219: comparing the keys of a dictionary *)
Fixpoint key_eqb (x y : key) : bool :=
  match x, y with
  | [], [] => true
  | a :: x', b :: y' => pair_eqb a b && key_eqb x' y'
  | _, _ => false
  end.

(** bbn.py:208-216: all keys over the (sorted) variables. *)
Definition all_keys (b : bbn) (vs : list var) : list key :=
  cart (map (fun v => map (pair v) (domain_of b v)) vs).

(** [node.variable_names]: bbn.py:493-500, 705-716. *)
Definition variable_names (c : list var) : list var := ssort c.

(** bbn.py:286-338 assign_clusters: for each node the first clique (in tree order) that contains
    its family; a dictionary from clique to nodes in insertion order. *)
Definition assign_one (jt : jtree) (asg : list (nat * list bnode)) (n : bnode)
  : res (list (nat * list bnode)) :=
  match filter (fun i => subset_of (fargs (nfac n)) (nth i (jcliques jt) [])) (jorder jt) with
  | [] => Err AssertionError
  | c :: _ =>
      Ok (dset Nat.eqb asg c
               ((match dget Nat.eqb asg c with Some l => l | None => [] end) ++ [n]))
  end.

(** bbn.py:286-338 *)
Definition assign_clusters (jt : jtree) (ns : list bnode) : res (list (nat * list bnode)) :=
  foldM (assign_one jt) ns [].

(** bbn.py:243-255: the product of the assigned node functions at one key. *)
Definition call_factor (argvals : key) (f : factor) : res Qc :=
  do args <- mapM (fun a => match dget String.eqb argvals a with
                            | Some v => Ok v
                            | None => Err KeyError
                            end) (fargs f);
  ffun f args.

(** bbn.py:242-255 *)
Definition entry_product (argvals : key) (ns : list bnode) : res Qc :=
  foldM (fun acc n => do p <- call_factor argvals (nfac n); Ok (acc * p)%Qc) ns 1%Qc.

(** bbn.py:231-256 step 2 for one clique. *)
Definition clique_table (b : bbn) (vs : list var) (ns : list bnode) : res table :=
  mapM (fun k => do p <- entry_product k ns; Ok (k, p)) (all_keys b vs).

(** bbn.py:265-274: evidence on one node zeroes the disagreeing entries of its clique. *)
Definition encode_evidence (ev : list (var * value)) (n : bnode) (t : table) : table :=
  match dget String.eqb ev (nvar n) with
  | None => t
  | Some x =>
      map (fun kp =>
             if existsb (fun vv => String.eqb (fst vv) (nvar n) && negb (label_eqb (snd vv) x)) (fst kp)
             then (fst kp, 0%Qc) else kp) t
  end.

(** The mutable part of a join tree during propagation: clique tables, separator tables (by position
    in [jseps]) and the marked cliques. (bbn.py:220, 349-356, 364, 570, 602) *)
Record pstate := mkP { cpot : nat -> table; spot : nat -> table; marked : list nat }.

(** bbn.py:220, 256, 570, 602: assignment to an attribute of one clique or separator *)
Definition updn {A} (f : nat -> A) (i : nat) (x : A) : nat -> A :=
  fun j => if Nat.eqb j i then x else f j.

(** bbn.py:705-716 *)
Definition sep_vars (jt : jtree) (k : nat) : list var :=
  variable_names (match nth_error (jseps jt) k with Some s => sslabel s | None => [] end).

(** bbn.py:493-500 *)
Definition clique_vars (jt : jtree) (i : nat) : list var :=
  variable_names (nth i (jcliques jt) []).

(** bbn.py:203-274 initialize_potentials *)
Definition initialize_potentials (b : bbn) (jt : jtree) (asg : list (nat * list bnode))
           (ev : list (var * value)) : res pstate :=
  let ones vs := map (fun k => (k, 1%Qc)) (all_keys b vs) in
  let c0 := fun i => ones (clique_vars jt i) in
  let s0 := fun k => ones (sep_vars jt k) in
  do c1 <- foldM (fun c an => do t <- clique_table b (clique_vars jt (fst an)) (snd an);
                              Ok (updn c (fst an) t)) asg c0;
  let c2 := match ev with
            | [] => c1
            | _ => fold_left (fun c an =>
                     fold_left (fun c n => updn c (fst an) (encode_evidence ev n (c (fst an))))
                               (snd an) c) asg c1
            end in
  Ok (mkP c2 s0 []).

(** bbn.py:456-474 transform: [X.index(r)] raises ValueError when absent. *)
Fixpoint index_of (r : var) (X : list var) : option nat :=
  match X with
  | [] => None
  | x :: xs => if String.eqb x r then Some O
               else match index_of r xs with Some i => Some (S i) | None => None end
  end.

(** bbn.py:456-474 *)
Definition transform (x : key) (X R : list var) : res key :=
  mapM (fun r => match index_of r X with
                 | None => Err ValueError
                 | Some pos => match nth_error x pos with
                               | Some e => Ok e
                               | None => Err IndexError
                               end
                 end) R.

(** [tt[entry] += v] on a [defaultdict(float)]. (bbn.py:439, 569) *)
Definition tt_add (t : table) (k : key) (v : Qc) : table :=
  dset key_eqb t k ((match dget key_eqb t k with Some w => w | None => 0 end) + v)%Qc.

(** bbn.py:547-570 project (and the sum of bbn.py:436-439). *)
Definition project_table (t : table) (X R : list var) : res table :=
  foldM (fun acc kv => do e <- transform (fst kv) X R; Ok (tt_add acc e (snd kv))) t [].

(** [sepset.potential_tt[entry]]: a defaultdict returns 0 for a missing key after [project];
    the old table is a plain dict or a defaultdict - a missing old entry is a KeyError or a
    division by zero, both errors here. (bbn.py:599) *)
Definition tget0 (t : table) (k : key) : Qc :=
  match dget key_eqb t k with Some v => v | None => 0%Qc end.

(** bbn.py:572-602 absorb, one entry. *)
Definition absorb_entry (new old : table) (X R : list var) (kv : key * Qc) : res (key * Qc) :=
  do e <- transform (fst kv) X R;
  if Qc_eq_bool (snd kv) 0 then Ok (fst kv, 0%Qc)
  else match dget key_eqb old e with
       | None => Err KeyError
       | Some o => if Qc_eq_bool o 0 then Err ZeroDivisionError
                   else Ok (fst kv, (snd kv * (tget0 new e / o))%Qc)
       end.

(** bbn.py:572-602 *)
Definition absorb_table (t new old : table) (X R : list var) : res table :=
  mapM (absorb_entry new old X R) t.

(** The separator between cliques i and j: bbn.py:535.  In a join tree there is exactly one. *)
Fixpoint find_sep (seps : list sepset) (i j : nat) (k : nat) : option nat :=
  match seps with
  | [] => None
  | s :: rest =>
      if (Nat.eqb (ssx s) i && Nat.eqb (ssy s) j) || (Nat.eqb (ssx s) j && Nat.eqb (ssy s) i)
      then Some k else find_sep rest i j (S k)
  end.

(** bbn.py:519-545 pass_message from clique i to clique j *)
Definition pass_message (jt : jtree) (i j : nat) (s : pstate) : res pstate :=
  match find_sep (jseps jt) i j 0 with
  | None => Err IndexError
  | Some k =>
      let old := spot s k in
      do new <- project_table (cpot s i) (clique_vars jt i) (sep_vars jt k);
      do t <- absorb_table (cpot s j) new old (clique_vars jt j) (sep_vars jt k);
      Ok (mkP (updn (cpot s) j t) (updn (spot s) k new) (marked s))
  end.

(** bbn.py:502-517 neighbouring_cliques *)
Definition jt_nbrs (seps : list sepset) (i : nat) : list nat :=
  flat_map (fun s => if Nat.eqb (ssx s) i then [ssy s]
                     else if Nat.eqb (ssy s) i then [ssx s] else []) seps.

(** bbn.py:364, 383 *)
Definition mark (i : nat) (s : pstate) : pstate := mkP (cpot s) (spot s) (i :: marked s).
(** bbn.py:369, 388, 396 *)
Definition is_marked (i : nat) (s : pstate) : bool := existsb (Nat.eqb i) (marked s).

(** bbn.py:360-378 collect_evidence; recursion depth is bounded by the number of cliques. *)
Fixpoint collect_evidence (fuel : nat) (sc : sched) (jt : jtree) (sender : nat)
         (receiver : option nat) (s : pstate) : res pstate :=
  match fuel with
  | O => Err OutOfFuel
  | S n =>
      do s1 <- foldM (fun s c => if is_marked c s then Ok s
                                 else collect_evidence n sc jt c (Some sender) s)
                     (vis sc 0 sender (jt_nbrs (jseps jt) sender)) (mark sender s);
      match receiver with
      | None => Ok s1
      | Some r => pass_message jt sender r s1
      end
  end.

(** bbn.py:380-402 distribute_evidence *)
Fixpoint distribute_evidence (fuel : nat) (sc : sched) (jt : jtree) (sender : nat) (s : pstate)
  : res pstate :=
  match fuel with
  | O => Err OutOfFuel
  | S n =>
      do s1 <- foldM (fun s c => if is_marked c s then Ok s else pass_message jt sender c s)
                     (vis sc 1 sender (jt_nbrs (jseps jt) sender)) (mark sender s);
      foldM (fun s c => if is_marked c s then Ok s else distribute_evidence n sc jt c s)
            (vis sc 2 sender (jt_nbrs (jseps jt) sender)) s1
  end.

(** bbn.py:340-358 propagate *)
Definition propagate (sc : sched) (jt : jtree) (s : pstate) : res pstate :=
  match jorder jt with
  | [] => Err IndexError
  | start :: _ =>
      let fuel := List.length (jcliques jt) in
      do s1 <- collect_evidence fuel sc jt start None (mkP (cpot s) (spot s) []);
      distribute_evidence fuel sc jt start (mkP (cpot s1) (spot s1) [])
  end.

(** bbn.py:404-444 marginal *)
Definition marginal (jt : jtree) (s : pstate) (v : var) : res table :=
  match filter (fun i => smem v (nth i (jcliques jt) [])) (jorder jt) with
  | [] => Err IndexError
  | c :: _ => project_table (cpot s c) (clique_vars jt c) [v]
  end.

(** bbn.py:137-148: collect the marginals of all nodes and their totals. *)
Notation marg := (list ((var * value) * Qc)) (only parsing).

(** bbn.py:138-143 *)
Definition add_marginals (acc : marg) (t : table) : res marg :=
  foldM (fun acc kv => match fst kv with
                       | e :: _ => Ok (dset pair_eqb acc e (snd kv))
                       | [] => Err IndexError
                       end) t acc.

(** bbn.py:147-148 *)
Definition normalizer (m : marg) (v : var) : Qc :=
  fold_left (fun acc kv => if String.eqb (fst (fst kv)) v then (acc + snd kv)%Qc else acc) m 0%Qc.

(** bbn.py:125-155 query.  The normaliser of a variable is accumulated from the same marginals that
    are stored, so it is computed here from the stored ones (each key is stored once). *)
Definition bbn_query (sc : sched) (b : bbn) (ev : list (var * value)) : res marg :=
  do _ <- validate_keyvals b ev;
  do jt <- build_join_tree sc (bnodes b);
  do asg <- assign_clusters jt (bnodes b);
  do s0 <- initialize_potentials b jt asg ev;
  do s1 <- propagate sc jt s0;
  do ms <- foldM (fun acc n => do t <- marginal jt s1 (nvar n); add_marginals acc t) (bnodes b) [];
  Ok (match ev with
      | [] => ms
      | _ => map (fun kv => let z := normalizer ms (fst (fst kv)) in
                            if Qc_eq_bool z 0 then kv else (fst kv, snd kv / z)%Qc) ms
      end).
