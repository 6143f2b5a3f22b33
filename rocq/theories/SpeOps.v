(** Model of the rest of src/spe.py: the operators that build expressions, transform,
    sharing of subtrees, densities, constraining on assignments, mutual information.

    Simplifications.  The weights of a partial sum are rationals; allclose on them is equality.
    ExposedSumSPE and SumSPE are one class.  Arithmetic is exact. *)
From Coq Require Import List Bool String ZArith QArith Permutation Reals.
From Verif Require Import Base Num Sets Poly Trans Dnf Logs Spe.
Import ListNotations.
Local Open Scope list_scope.

Section Ops.
  Context {N : numsys} (io : iterorder N) (so : strorder) (po : polyoracle N) (fuel : nat).
  Context {S : logsys} {D : distsys N S}.
  Notation enum := (ext (num N)).
  Notation tr := (tr N).
  Notation lg := (lg S).
  Notation spe := (spe D).
  Notation val := (val N).
  Notation M := (M (N:=N) (D:=D)).

  (** ** Operators *)

  (** src/spe.py:315-326 PartialSumSPE *)
  Record partial := mkPartial { p_children : list spe; p_weights : list Q }.
  Definition PartialSumSPE (children : list spe) (weights : list Q) : res partial :=
    do _ <- passert (negb (Qle_bool 1 (Qsum weights)));
    do b <- are_identical (map get_symbols children);
    if b then Ok (mkPartial children weights) else Raise ValueError.
  (** src/spe.py:111-115 __rmul__number: x * spe *)
  Definition rmul (x : Q) (s : spe) : res partial :=
    if negb (Qle_bool x 0) && negb (Qle_bool 1 x) then PartialSumSPE [s] [x] else Raise ValueError.
  (** src/spe.py:337-357 PartialSumSPE.__or__: another partial sum, or a sum *)
  Definition partial_or (a b : partial) : res (partial + spe) :=
    let weights := p_weights a ++ p_weights b in
    let children := p_children a ++ p_children b in
    let cumsum := Qsum weights in
    if Qeq_bool cumsum 1 then do s <- mk_Sum children (map lofQ weights); Ok (inr s)
    else if negb (Qle_bool 1 cumsum) then do p <- PartialSumSPE children weights; Ok (inl p)
    else Raise ValueError.
  (** x1 * s1 | x2 * s2 | ...: | associates to the left; SumSPE has no | *)
  Definition or_more (a : partial + spe) (t : Q * spe) : res (partial + spe) :=
    do b <- rmul (fst t) (snd t);
    match a with inl p => partial_or p b | inr _ => Raise TypeError end.
  Definition mixture (t : Q * spe) (ts : list (Q * spe)) : res (partial + spe) :=
    do p <- rmul (fst t) (snd t); foldM or_more ts (inl p).
  (** src/spe.py:127-140 __and__ *)
  Definition spe_and (s t : spe) : res spe := mk_Product [s; t].
  (** src/spe.py:299-313 ExposedSumSPE.__init__; the leaf spe_weights has the symbol x *)
  Definition exposed_child (x : string) (children : list (string * spe)) (n : string) : res spe :=
    do l <- mk_NominalLeaf x [(n, 1%Q)];
    match lookup n children with Some c => mk_Product [l; c] | None => Raise KeyError end.
  Definition ExposedSumSPE (children : list (string * spe)) (x : string) (ws : list (string * Q)) : res spe :=
    let support := it_str so (map fst ws) in
    do weights <- mapM (fun n => do e <- t_in_list (TId x) [VStr n];
                                 leaf_logprob io po fuel (D:=D) (NominalLeaf x ws) e) support;
    do kids <- mapM (exposed_child x children) support;
    mk_Sum kids weights.

  (** ** transform: src/spe.py:248-250, 462-476, 718-724, 940-945, 989-990 *)
  Definition known (t : tr) (symbols_ : list string) : bool := forallb (fun x => inb String.eqb x symbols_) (symbols t).
  Definition new_env (env : tenv) (y : string) (t : tr) : res tenv :=
    do _ <- passert (negb (inb String.eqb y (map fst env)));
    do _ <- passert (known t (map fst env));
    Ok (env ++ [(y, t)]).
  Fixpoint transform (s : spe) (y : string) (t : tr) {struct s} : res spe :=
    match s with
    | RealLeaf disc x d supp cond env => do env' <- new_env env y t; mk_RealLeaf disc x d supp cond env'
    | AtomicLeaf x v env => do env' <- new_env env y t; Ok (AtomicLeaf x v env')
    | NominalLeaf _ _ => Raise ValueError
    | SumSPE l => do cs <- mapM (fun c => transform (fst c) y t) l; mk_Sum cs (map snd l)
    | ProductSPE l =>
      do _ <- passert (known t (get_symbols s));
      do _ <- passert (Nat.eqb (List.length (filter (fun c => known t (get_symbols c)) l)) 1);
      do cs <- (fix go (l : list spe) : res (list spe) :=
        match l with
        | [] => Ok []
        | c :: l => if known t (get_symbols c) then do c' <- transform c y t; Ok (c' :: l)
                    else do l' <- go l; Ok (c :: l')
        end) l;
      mk_Product cs
    end.

  (** ** src/spe.py:1045-1058 spe_cache_duplicate_subtrees.  A dictionary finds a key when the
      hashes agree and the keys are equal.  Python stores the expression and then replaces its
      children in place; here the entry is added once the children are known.  No child equals
      its parent, so the entry is not looked up in between. *)
  Context (hash : spe -> Z).
  Definition table_get (s : spe) (m : list spe) : option spe :=
    find (fun k => Z.eqb (hash k) (hash s) && speqb k s) m.
  Fixpoint cache_duplicate_subtrees (s : spe) (m : list spe) {struct s} : spe * list spe :=
    match table_get s m with
    | Some k => (k, m)
    | None =>
      match s with
      | SumSPE l =>
        let (l', m') := (fix go (l : list (spe * lg)) (m : list spe) : list (spe * lg) * list spe :=
          match l with
          | [] => ([], m)
          | c :: l => let (c', m) := cache_duplicate_subtrees (fst c) m in
                      let (l', m) := go l m in ((c', snd c) :: l', m)
          end) l m in
        (SumSPE l', SumSPE l' :: m')
      | ProductSPE l =>
        let (l', m') := (fix go (l : list spe) (m : list spe) : list spe * list spe :=
          match l with
          | [] => ([], m)
          | c :: l => let (c', m) := cache_duplicate_subtrees c m in
                      let (l', m) := go l m in (c' :: l', m)
          end) l m in
        (ProductSPE l', ProductSPE l' :: m')
      | _ => (s, s :: m)
      end
    end.

  (** ** Densities and constraining *)
  Context (ident : spe -> nat).
  Notation assignment := (assignment (N:=N)).

  (** atomic: src/spe.py:843, 886, 933, 970 *)
  Definition leaf_atomic (s : spe) : bool := match s with RealLeaf disc _ _ _ _ _ => disc | _ => true end.
  (** logpdf__: src/spe.py:861-869, 906-914, 983-987 (math.log raises on 0), 690-691 *)
  Definition leaf_logpdf_val (s : spe) (v : val) : res lg :=
    match s with
    | RealLeaf disc _ d supp cond _ =>
      match v with VStr _ => Ok lninf | VNum x => leaf_logpdf disc d supp cond x end
    | NominalLeaf _ ws =>
      match v with
      | VStr x => match lookup x ws with
                  | Some q => if Qle_bool q 0 then Raise ValueError else Ok (lofQ q)
                  | None => Ok lninf
                  end
      | VNum _ => Ok lninf
      end
    | _ => Raise NotImplementedError
    end.
  (** src/spe.py:671-677 LeafSPE.logpdf_mem; the leaf's symbol is [fst (leaf_env s)] *)
  Definition one_value (s : spe) (a : assignment) : res val :=
    match a with
    | [(k, v)] => do _ <- passert (String.eqb k (fst (leaf_env s))); Ok v
    | _ => Raise AssertionError
    end.
  Definition leaf_logpdf_asg (s : spe) (a : assignment) : res (nat * lg) :=
    do v <- one_value s a;
    do w <- leaf_logpdf_val s v;
    Ok (if leaf_atomic s then 0%nat else 1%nat, w).
  (** src/spe.py:563-572 ProductSPE.logpdf_mem: the assignment split by child, in order of
      insertion *)
  Fixpoint add_group (i : nat) (p : string * val) (g : list (nat * assignment)) : list (nat * assignment) :=
    match g with
    | [] => [(i, [p])]
    | (j, a) :: g => if Nat.eqb i j then (j, a ++ [p]) :: g else (j, a) :: add_group i p g
    end.
  Definition split_assignment (syms : list (list string)) (a : assignment) : res (list (nat * assignment)) :=
    foldM (fun g p => match child_of (fst p) 0 syms with
                      | Some i => Ok (add_group i p g)
                      | None => Raise KeyError
                      end) a [].
  Definition add_pdf (x y : nat * lg) : nat * lg := ((fst x + fst y)%nat, ladd (snd x) (snd y)).
  Definition product_logpdf (cs : list (list string * (assignment -> M (nat * lg)))) (a : assignment) : M (nat * lg) :=
    mbind (lift (split_assignment (map fst cs) a)) (fun g =>
    mbind (mmap (fun q => match nth_error cs (fst q) with
                          | Some k => snd k (snd q)
                          | None => lift (Raise IndexError)
                          end) g) (fun ps =>
      match ps with
      | [] => lift (Raise TypeError)
      | p :: ps => mret (fold_left add_pdf ps p)
      end)).
  (** src/spe.py:269-277 SumSPE.logpdf_mem *)
  Definition min_dim (ps : list (nat * lg)) : option nat :=
    match filter (fun p => negb (lisninf (snd p))) ps with
    | [] => None
    | q :: qs => Some (fold_left (fun m p => Nat.min m (fst p)) qs (fst q))
    end.
  Definition sum_logpdf (ps : list (nat * lg)) (weights : list lg) : res (nat * lg) :=
    match min_dim ps with
    | None => Ok (0%nat, lninf)
    | Some d =>
      do p <- lse (map (fun q => ladd (snd q) (snd (fst q)))
                     (filter (fun q => Nat.eqb (fst (fst q)) d) (combine ps weights)));
      Ok (d, p)
    end.
  (** logpdf_mem: src/spe.py:269-277, 563-572, 671-677 *)
  Fixpoint logpdf_mem (s : spe) (a : assignment) {struct s} : M (nat * lg) :=
    memo_logpdf ident s a
      (match s with
       | SumSPE l =>
         mbind (mmap (fun c => logpdf_mem (fst c) a) l) (fun ps => lift (sum_logpdf ps (map snd l)))
       | ProductSPE l => product_logpdf (map (fun c => (get_symbols c, logpdf_mem c)) l) a
       | _ => lift (leaf_logpdf_asg s a)
       end).
  (** logpdf: src/spe.py:183-186, 645-648 *)
  Definition logpdf (s : spe) (a : assignment) : M lg :=
    mbind (logpdf_mem s a) (fun p => mret (snd p)).

  (** constrain__: src/spe.py:819-821, 1023-1025 *)
  Definition leaf_constrain_val (s : spe) (v : val) : res spe :=
    do p <- leaf_logpdf_val s v;
    do _ <- passert (negb (lisninf p));
    match s, v with
    | RealLeaf _ x _ _ _ _, VNum (Fin c) => Ok (AtomicLeaf x c (base_env x))
    | NominalLeaf x _, VStr y => mk_NominalLeaf x [(y, 1%Q)]
    | _, _ => Raise ValueError
    end.
  (** src/spe.py:678-683 LeafSPE.constrain_mem *)
  Definition leaf_constrain (s : spe) (a : assignment) : res spe :=
    do v <- one_value s a; leaf_constrain_val s v.
  (** src/spe.py:574-584 ProductSPE.constrain_mem *)
  Definition product_constrain (cs : list (spe * (assignment -> M spe))) (a : assignment) : M spe :=
    mbind (mmap (fun k =>
      match filter (fun x => inb String.eqb x (map fst a)) (get_symbols (fst k)) with
      | [] => mret (fst k)
      | syms =>
        mbind (lift (mapM (fun x => match lookup x a with Some v => Ok (x, v) | None => Raise KeyError end) (it_str so syms)))
          (fun sa => snd k sa)
      end) cs) (fun children => lift (mk_Product children)).
  (** src/spe.py:279-289 SumSPE.constrain_mem; the children come with their functions and weights *)
  Definition sum_constrain (cs : list ((assignment -> M (nat * lg)) * (assignment -> M spe) * lg)) (a : assignment) : M spe :=
    mbind (mmap (fun c => fst (fst c) a) cs) (fun ps =>
      match min_dim ps with
      | None => lift (Raise AssertionError)
      | Some d =>
        let qs := filter (fun q => negb (lisninf (snd (fst q))) && Nat.eqb (fst (fst q)) d) (combine ps cs) in
        mbind (mmap (fun q => snd (fst (snd q)) a) qs) (fun children =>
        lift (do weights <- lognorm (map (fun q => ladd (snd (fst q)) (snd (snd q))) qs);
              sum_or_one children weights))
      end).
  (** constrain_mem: src/spe.py:279-289, 574-584, 678-683 *)
  Fixpoint constrain_mem (s : spe) (a : assignment) {struct s} : M spe :=
    memo_constrain ident s a
      (match s with
       | SumSPE l => sum_constrain (map (fun c => (logpdf_mem (fst c), constrain_mem (fst c), snd c)) l) a
       | ProductSPE l => product_constrain (map (fun c => (c, constrain_mem c)) l) a
       | _ => lift (leaf_constrain s a)
       end).
  (** constrain: src/spe.py:187-190, 649-652 *)
  Definition constrain (s : spe) (a : assignment) : M spe := constrain_mem s a.

  (** ** src/spe.py:87-103 mutual_information.  A log-probability lp is, as a number, ln (toP lp). *)
  Definition fresh_run {A} (x : M A) : res A := fst (x Memo).
  Definition mi_term (p a b : lg) : R :=
    if lisninf p then 0%R else (toP p * (ln (toP p) - (ln (toP a) + ln (toP b))))%R.
  Definition mutual_information (s : spe) (A B : tr) : res R :=
    let run := logprob io po fuel ident s in
    do lpA1 <- fresh_run (run A);
    do lpB1 <- fresh_run (run B);
    do lpA0 <- ldiff lzero lpA1;
    do lpB0 <- ldiff lzero lpB1;
    fresh_run (
      mbind (mbind (lift (ev_and io A B)) run) (fun lp11 =>
      mbind (mbind (lift (do nB <- ev_not io B; ev_and io A nB)) run) (fun lp10 =>
      mbind (mbind (lift (do nA <- ev_not io A; ev_and io nA B)) run) (fun lp01 =>
      lift (do t <- lse [lp11; lp10; lp01];
            do lp00 <- ldiff lzero t;
            Ok (mi_term lp11 lpA1 lpB1 + mi_term lp10 lpA1 lpB0 + mi_term lp01 lpA0 lpB1 + mi_term lp00 lpA0 lpB0)%R))))).
End Ops.
