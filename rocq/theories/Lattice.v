(** src/lattice.rs, and [populate_nodes] of src/model.rs.

    The code computes with [f64].  The model is written over any arithmetic [arith S], because some properties are about
    the algorithm in exact arithmetic; [f64_arith] is the arithmetic of the program. *)
From Coq Require Import Permutation.
From Verif Require Import Base F64 Trie Model Heap.
Set Implicit Arguments.

(** The operations on scores that occur in src/lattice.rs; [a_ltb x y] is [x < y] and also [y > x]. *)
Record arith (S : Type) := Arith {
  a_zero : S; a_one : S; a_fifty : S;
  a_add : S -> S -> S; a_sub : S -> S -> S; a_ltb : S -> S -> bool;
  a_exp : S -> S; a_ln : S -> S }.

(** [f64], given the functions [exp] and [ln] of the platform. *)
Definition f64_arith (exp ln : f64 -> f64) : arith f64 := Arith f0 f1 (f64_of_Z 50) fadd fsub fltb exp ln.

(** src/lattice.rs:13-26 [struct Node]. *)
Record node (S : Type) := Node {
  n_pos : nat; n_token_id : N; n_token_len : nat; n_score : S; n_prev : option nat; n_back : S }.
Arguments Node {S}.

(** src/lattice.rs:50-64 [struct Lattice]. *)
Record lattice (S : Type) := Lattice {
  l_sentence : bytes; l_begin : list (list nat); l_end : list (list nat); l_nodes : list (node S); l_bos : nat; l_eos : nat }.
Arguments Lattice {S}.

(** src/lattice.rs:381-401 [VecPool]: the last vector of the pool is the first of this list.  Capacities are not
    modelled. *)
Definition pool := list (list nat).
Definition pool_with_capacity (a b : nat) : pool := repeat [] a.
Definition pool_get (p : pool) : list nat * pool := match p with [] => ([], []) | v :: p' => (v, p') end.
Definition clear (v : list nat) : list nat := [].
Definition pool_put (p : pool) (v : list nat) : pool := clear v :: p.

(** [vec.resize_with(n, || vec_pool.get())] on an empty vector. *)
Fixpoint pool_take (n : nat) (p : pool) : list (list nat) * pool :=
  match n with
  | 0 => ([], p)
  | S n' => let '(v, p) := pool_get p in let '(vs, p) := pool_take n' p in (v :: vs, p)
  end.

(** [TokenID::MAX - 1] and [TokenID::MAX]. *)
Definition bos_id : N := (2 ^ 32 - 2)%N.
Definition eos_id : N := (2 ^ 32 - 1)%N.

Section Lattice.
  Context {S : Type} (A : arith S).

  (** src/lattice.rs:35-44 [Node::new]. *)
  Definition node_new (pos : nat) (id : N) (len : nat) (score : S) : node S := Node pos id len score None (a_zero A).

  (** src/lattice.rs:67-76 [Lattice::new]. *)
  Definition lattice_new : lattice S := Lattice [] [] [] [] 0 0.

  (** [xs[i].push(x)]. *)
  Definition push_at (xs : list (list nat)) (i x : nat) : res (list (list nat)) :=
    v <- index xs i ;; store xs i (v ++ [x]).

  (** src/lattice.rs:78-103 [Lattice::from]. *)
  Definition lattice_from (l : lattice S) (sentence : bytes) (p : pool) : res (lattice S * pool) :=
    let p := fold_left pool_put (l_begin l) p in
    let p := fold_left pool_put (l_end l) p in
    let '(begins, p) := pool_take (length sentence + 1) p in
    let '(ends, p) := pool_take (length sentence + 1) p in
    let nodes := [node_new 0 bos_id 0 (a_zero A); node_new (length sentence) eos_id 0 (a_zero A)] in
    ends <- push_at ends 0 0 ;;
    begins <- push_at begins (length sentence) 1 ;;
    Ok (Lattice sentence begins ends nodes 0 1, p).

  (** src/lattice.rs:105-110 [Lattice::insert]. *)
  Definition lattice_insert (l : lattice S) (pos : nat) (id : N) (len : nat) (score : S) : res (lattice S) :=
    let idx := length (l_nodes l) in
    begins <- push_at (l_begin l) pos idx ;;
    ends <- push_at (l_end l) (pos + len) idx ;;
    Ok (Lattice (l_sentence l) begins ends (l_nodes l ++ [node_new pos id len score]) (l_bos l) (l_eos l)).

  Definition with_nodes (l : lattice S) (nodes : list (node S)) : lattice S :=
    Lattice (l_sentence l) (l_begin l) (l_end l) nodes (l_bos l) (l_eos l).
  Definition with_prev (n : node S) (prev : option nat) : node S :=
    Node (n_pos n) (n_token_id n) (n_token_len n) (n_score n) prev (n_back n).
  Definition with_back (n : node S) (back : S) : node S :=
    Node (n_pos n) (n_token_id n) (n_token_len n) (n_score n) (n_prev n) back.

  (** src/lattice.rs:122-129: the best left neighbour. *)
  Fixpoint best_left (nodes : list (node S)) (r : nat) (lefts : list nat) (best : option nat) (best_score : S)
      : res (option nat * S) :=
    match lefts with
    | [] => Ok (best, best_score)
    | l :: lefts' =>
        ln <- index nodes l ;;
        rn <- index nodes r ;;
        let score := a_add A (n_back ln) (n_score rn) in
        if is_none best || a_ltb A best_score score then best_left nodes r lefts' (Some l) score
        else best_left nodes r lefts' best best_score
    end.

  (** src/lattice.rs:116-137: the loop over [begin_nodes[pos]]; [false] is the early return. *)
  Fixpoint viterbi_rights (nodes : list (node S)) (lefts rights : list nat) : res (list (node S) * bool) :=
    match rights with
    | [] => Ok (nodes, true)
    | r :: rights' =>
        rn <- index nodes r ;;
        nodes <- store nodes r (with_prev rn None) ;;
        '(best, score) <- best_left nodes r lefts None (a_zero A) ;;
        if is_none best then Ok (nodes, false)
        else
          nodes <- store nodes r (with_back (with_prev rn best) score) ;;
          viterbi_rights nodes lefts rights'
    end.

  (** src/lattice.rs:115-138: the loop over the [n] positions [pos], [pos + 1], ... *)
  Fixpoint viterbi_positions (l : lattice S) (nodes : list (node S)) (pos n : nat) : res (list (node S) * bool) :=
    match n with
    | 0 => Ok (nodes, true)
    | Datatypes.S n' =>
        rights <- index (l_begin l) pos ;;
        lefts <- match rights with [] => Ok [] | _ :: _ => index (l_end l) pos end ;;
        '(nodes, go_on) <- viterbi_rights nodes lefts rights ;;
        if go_on then viterbi_positions l nodes (pos + 1) n' else Ok (nodes, false)
    end.

  (** src/lattice.rs:142-146: the walk along [prev]; [results] in the order of the pushes. *)
  Fixpoint trace (fuel : nat) (nodes : list (node S)) (idx : nat) (results : list (node S)) : res (list (node S)) :=
    n <- index nodes idx ;;
    match n_prev n with
    | None => Ok results
    | Some prev =>
        match fuel with
        | 0 => Diverge
        | Datatypes.S fuel' => trace fuel' nodes prev (results ++ [n])
        end
    end.

  (** src/lattice.rs:112-150 [viterbi]: the lattice afterwards and the result.  A walk longer than the number of nodes goes
      round in a circle; the loop gives up after more steps than that. *)
  Definition viterbi (l : lattice S) : res (lattice S * list (node S)) :=
    let len := length (l_sentence l) in
    '(nodes, finished) <- viterbi_positions l (l_nodes l) 0 (len + 1) ;;
    if finished then
      last <- index (l_begin l) len ;;
      idx <- index last 0 ;;
      results <- trace (length nodes + len + 1) nodes idx [] ;;
      Ok (with_nodes l nodes, rev results)
    else Ok (with_nodes l nodes, []).

  (** src/lattice.rs:338-343 [struct Hypothesis].  [next] is given by the indices of the nodes on the chain, the nearest
      first; [None] is the empty chain. *)
  Record hypothesis := Hyp { h_node : nat; h_next : list nat; h_fx : S; h_gx : S }.

  (** src/lattice.rs:370-378 [Ord for Hypothesis]: [Less] when [fx] is less, else [Greater]. *)
  Definition hyp_less (a b : hypothesis) : bool := a_ltb A (h_fx a) (h_fx b).
  (** src/lattice.rs:214. *)
  Fixpoint push_all (agenda : list hypothesis) (hs : list hypothesis) : res (list hypothesis) :=
    match hs with
    | [] => Ok agenda
    | h :: hs' => agenda <- heap_push hyp_less agenda h ;; push_all agenda hs'
    end.
  (** src/lattice.rs:224-226. *)
  Fixpoint move_best (k : nat) (agenda new_agenda : list hypothesis) : res (list hypothesis) :=
    match k with
    | 0 => Ok new_agenda
    | Datatypes.S k' =>
        top <- heap_pop hyp_less agenda ;;
        match top with
        | None => Panic                                           (* unwrap *)
        | Some (h, agenda) => new_agenda <- heap_push hyp_less new_agenda h ;; move_best k' agenda new_agenda
        end
    end.
  (** src/lattice.rs:219-228: the agenda is cut when it is too long. *)
  Definition k_max_agenda_size : N := 100000%N.
  Definition k_min_agenda_size : N := 512%N.
  Definition shrink (n : nat) (agenda : list hypothesis) : res (list hypothesis) :=
    if (k_max_agenda_size <? N.of_nat (length agenda))%N
    then move_best (N.to_nat (N.min k_min_agenda_size (N.of_nat n * 10))) agenda []
    else Ok agenda.
  (** src/lattice.rs:209-215: the hypotheses pushed for the left neighbours. *)
  Fixpoint expand (nodes : list (node S)) (top : hypothesis) (lefts : list nat) : res (list hypothesis) :=
    match lefts with
    | [] => Ok []
    | l :: lefts' =>
        ln <- index nodes l ;;
        hs <- expand nodes top lefts' ;;
        Ok (Hyp l (h_node top :: h_next top) (a_add A (n_back ln) (h_gx top)) (a_add A (n_score ln) (h_gx top)) :: hs)
    end.

  (** What the top hypothesis leads to: a found path (188-200) or new hypotheses (209-215). *)
  Definition visit (l : lattice S) (top : hypothesis) : res (list nat + list hypothesis) :=
    n <- index (l_nodes l) (h_node top) ;;
    bos <- index (l_nodes l) (l_bos l) ;;
    if N.eqb (n_token_id n) (n_token_id bos) then
      match h_next top with
      | [] => Panic
      | next => Ok (inl (removelast next))
      end
    else
      lefts <- index (l_end l) (n_pos n) ;;
      hs <- expand (l_nodes l) top lefts ;;
      Ok (inr hs).

  (** src/lattice.rs:180-235. *)
  Fixpoint nbest_loop (fuel : nat) (l : lattice S) (n : nat) (agenda : list hypothesis) (found : list (list nat)) : res (list (list nat)) :=
    match fuel with
    | 0 => Diverge
    | Datatypes.S fuel' =>
        top <- heap_pop hyp_less agenda ;;
        match top with
        | None => Ok found
        | Some (top, agenda) =>
            v <- visit l top ;;
            match v with
            | inl path => if length (found ++ [path]) =? n then Ok (found ++ [path]) else nbest_loop fuel' l n agenda (found ++ [path])
            | inr hs =>
                agenda <- push_all agenda hs ;;
                agenda <- shrink n agenda ;;
                nbest_loop fuel' l n agenda found
            end
        end
    end.
  (** src/lattice.rs:153-163 [collect_nodes_from_indices]. *)
  Fixpoint collect_nodes (nodes : list (node S)) (indices : list nat) : res (list (node S)) :=
    match indices with
    | [] => Ok []
    | i :: indices' => n <- index nodes i ;; ns <- collect_nodes nodes indices' ;; Ok (n :: ns)
    end.
  Fixpoint collect_paths (nodes : list (node S)) (paths : list (list nat)) : res (list (list (node S))) :=
    match paths with
    | [] => Ok []
    | p :: paths' => ns <- collect_nodes nodes p ;; rest <- collect_paths nodes paths' ;; Ok (ns :: rest)
    end.

  (** src/lattice.rs:172-176: the first hypothesis; its scores are read before the call of [viterbi]. *)
  Definition first_hypothesis (l : lattice S) : res hypothesis :=
    eos <- index (l_nodes l) 1 ;; Ok (Hyp 1 [] (n_score eos) (n_score eos)).

  (** src/lattice.rs:152-238 [nbest]. *)
  Definition nbest (fuel : nat) (l : lattice S) (n : nat) : res (lattice S * list (list (node S))) :=
    match n with
    | 0 => Ok (l, [])
    | 1 => '(l', path) <- viterbi l ;; Ok (l', [path])
    | _ =>
        h <- first_hypothesis l ;;
        agenda <- heap_push hyp_less [] h ;;
        '(l', _) <- viterbi l ;;
        found <- nbest_loop fuel l' n agenda [] ;;
        paths <- collect_paths (l_nodes l') found ;;
        Ok (l', paths)
    end.
  (** What it answers. *)
  Definition nbest_result (l : lattice S) (n : nat) (r : res (lattice S * list (list (node S)))) : Prop :=
    exists enough, forall fuel, enough <= fuel -> nbest fuel l n = r.

  (** src/lattice.rs:321-333 [log_sum_exp]. *)
  Definition log_sum_exp (x y : S) (init_mode : bool) : S :=
    if init_mode then y
    else
      let '(vmin, vmax) := if a_ltb A y x then (y, x) else (x, y) in
      if a_ltb A (a_add A vmin (a_fifty A)) vmax then vmax
      else a_add A vmax (a_ln A (a_add A (a_exp A (a_sub A vmin vmax)) (a_one A))).

  (** src/lattice.rs:261-270 and 277-286: the neighbours [others] of node [i] are added to [acc[i]]; [first] is the first of
      them. *)
  Fixpoint sum_neighbours (nodes : list (node S)) (first i : nat) (others : list nat) (acc : list S) : res (list S) :=
    match others with
    | [] => Ok acc
    | o :: others' =>
        x <- index acc i ;;
        n <- index nodes o ;;
        y <- index acc o ;;
        acc <- store acc i (log_sum_exp x (a_add A (n_score n) y) (o =? first)) ;;
        sum_neighbours nodes first i others' acc
    end.
  Fixpoint sum_nodes (nodes : list (node S)) (others is : list nat) (acc : list S) : res (list S) :=
    match is with
    | [] => Ok acc
    | i :: is' =>
        acc <- match others with [] => Ok acc | first :: _ => sum_neighbours nodes first i others acc end ;;
        sum_nodes nodes others is' acc
    end.

  (** src/lattice.rs:259-272: [n] positions from [pos] on, upwards. *)
  Fixpoint forward (l : lattice S) (alpha : list S) (pos n : nat) : res (list S) :=
    match n with
    | 0 => Ok alpha
    | Datatypes.S n' =>
        rights <- index (l_begin l) pos ;;
        lefts <- match rights with [] => Ok [] | _ :: _ => index (l_end l) pos end ;;
        alpha <- sum_nodes (l_nodes l) lefts rights alpha ;;
        forward l alpha (pos + 1) n'
    end.

  (** src/lattice.rs:275-287: the positions [n - 1], ..., 0. *)
  Fixpoint backward (l : lattice S) (beta : list S) (n : nat) : res (list S) :=
    match n with
    | 0 => Ok beta
    | Datatypes.S pos =>
        lefts <- index (l_end l) pos ;;
        rights <- match lefts with [] => Ok [] | _ :: _ => index (l_begin l) pos end ;;
        beta <- sum_nodes (l_nodes l) rights lefts beta ;;
        backward l beta pos
    end.

  (** src/lattice.rs:296-308. *)
  Fixpoint add_expected (nodes : list (node S)) (alpha beta : list S) (z : S) (is : list nat) (expected : list S) : res (list S) :=
    match is with
    | [] => Ok expected
    | i :: is' =>
        n <- index nodes i ;;
        a <- index alpha i ;;
        b <- index beta i ;;
        let total := a_sub A (a_add A (a_add A a (n_score n)) b) z in
        x <- index expected (N.to_nat (n_token_id n)) ;;
        expected <- store expected (N.to_nat (n_token_id n)) (a_add A x (a_exp A total)) ;;
        add_expected nodes alpha beta z is' expected
    end.
  (** src/lattice.rs:295-309: [n] positions from [pos] on. *)
  Fixpoint add_positions (l : lattice S) (alpha beta : list S) (z : S) (pos n : nat) (expected : list S) : res (list S) :=
    match n with
    | 0 => Ok expected
    | Datatypes.S n' =>
        is <- index (l_begin l) pos ;;
        expected <- add_expected (l_nodes l) alpha beta z is expected ;;
        add_positions l alpha beta z (pos + 1) n' expected
    end.

  (** src/lattice.rs:245-312 [populate_marginal]: the expected frequencies afterwards and the result. *)
  Definition populate_marginal (l : lattice S) (expected : list S) : res (list S * S) :=
    let len := length (l_sentence l) in
    let zeros := repeat (a_zero A) (length (l_nodes l)) in
    alpha <- forward l zeros 0 (len + 1) ;;
    beta <- backward l zeros (len + 1) ;;
    z <- index alpha (l_eos l) ;;
    expected <- add_positions l alpha beta z 0 len expected ;;
    Ok (expected, z).

  (** src/model.rs:40-54 of [populate_nodes]: the matches at [pos].  [conv] is the identity for the program.  [k] counts the
      random draws. *)
  Fixpoint populate_matches (conv : f64 -> S) (vocab : list scored_token) (rnd : nat -> f64) (dropout : f64) (pos : nat)
      (matches : list (N * N)) (l : lattice S) (k : nat) : res (lattice S * nat) :=
    match matches with
    | [] => Ok (l, k)
    | (id, len) :: matches' =>
        tok <- index vocab (N.to_nat id) ;;
        let draw := (1 <? len)%N && fltb f0 dropout in
        let k' := if draw then k + 1 else k in
        if draw && fltb (rnd k) dropout then populate_matches conv vocab rnd dropout pos matches' l k'
        else
          l <- lattice_insert l pos id (N.to_nat len) (conv (st_score tok)) ;;
          populate_matches conv vocab rnd dropout pos matches' l k'
    end.

  (** src/model.rs:38-55: the loop over the positions; [suffix] is [&input[pos..]]. *)
  Fixpoint populate_positions (conv : f64 -> S) (m : model) (rnd : nat -> f64) (dropout : f64) (suffix : bytes) (pos : nat)
      (l : lattice S) (k : nat) : res (lattice S * nat) :=
    match suffix with
    | [] => Ok (l, k)
    | _ :: suffix' =>
        '(l, k) <- populate_matches conv (m_vocab m) rnd dropout pos (common_prefix_search m suffix) l k ;;
        populate_positions conv m rnd dropout suffix' (pos + 1) l k
    end.

  (** src/model.rs:34-56 [populate_nodes], with the number of random draws made before and after. *)
  Definition populate_nodes (conv : f64 -> S) (m : model) (rnd : nat -> f64) (dropout : f64) (l : lattice S) (k : nat)
      : res (lattice S * nat) :=
    populate_positions conv m rnd dropout (l_sentence l) 0 l k.
End Lattice.
Arguments Hyp {S}.
