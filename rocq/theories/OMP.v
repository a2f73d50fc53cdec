(** * OpenMP work-sharing loops

    Models [#pragma omp parallel for num_threads(n) reduction(op : ...)] as used
    in src/csqp.cpp:932, 1142, 1186, 1213 and 1381.  [S] is what the arrays hold
    at one index (the loops below write only at their own index), [A] the tuple
    of reduction variables, of which each thread has a private copy.

    An iteration is a list of statements; every statement is one atomic step and
    the threads interleave arbitrarily.  The runtime may give the iterations to
    the threads in any way (any number of threads, any chunking): [chunks].
    An exception leaving the loop body terminates the process ([Dead]): OpenMP
    requires it to be caught in the same iteration, and compilers emit
    std::terminate. *)
From Coq Require Import List Arith Lia Permutation Bool ssreflect ssrbool.
Import ListNotations.
Set Implicit Arguments.
Unset Strict Implicit.

Section OMP.
Variables S A : Type.

Inductive mop :=
  | MW (f : S -> S)              (* write at the own index *)
  | MR (g : S -> A -> A)         (* update a private reduction variable *)
  | MT (p : A -> bool).          (* if (p) throw *)
Record thread := mkThread { th_acc : A; th_ops : list (nat * mop) }.
Inductive cfg := Run (m : list S) (ths : list thread) | Dead.

Fixpoint upd (t : nat) (f : S -> S) (m : list S) : list S :=
  match t, m with
  | _, [] => []
  | O, s :: m' => f s :: m'
  | Datatypes.S t', s :: m' => s :: upd t' f m'
  end.

Inductive pstep : cfg -> cfg -> Prop :=
  | ps_write m p q a t f ops :
      pstep (Run m (p ++ mkThread a ((t, MW f) :: ops) :: q)) (Run (upd t f m) (p ++ mkThread a ops :: q))
  | ps_reduce m p q a t g ops s : nth_error m t = Some s ->
      pstep (Run m (p ++ mkThread a ((t, MR g) :: ops) :: q)) (Run m (p ++ mkThread (g s a) ops :: q))
  | ps_check m p q a t r ops : r a = false ->
      pstep (Run m (p ++ mkThread a ((t, MT r) :: ops) :: q)) (Run m (p ++ mkThread a ops :: q))
  | ps_throw m p q a t r ops : r a = true ->
      pstep (Run m (p ++ mkThread a ((t, MT r) :: ops) :: q)) Dead.
Inductive psteps : cfg -> cfg -> Prop :=
  | pss_refl x : psteps x x
  | pss_step x y z : pstep x y -> psteps y z -> psteps x z.

(** the start of the region: private reduction variables hold the identity [a0] *)
Definition chunk_ops (body : nat -> list mop) (c : list nat) : list (nat * mop) :=
  flat_map (fun t => map (pair t) (body t)) c.
Definition fork (body : nat -> list mop) (a0 : A) (chunks : list (list nat)) (m : list S) : cfg :=
  Run m (map (fun c => mkThread a0 (chunk_ops body c)) chunks).
Definition finished (ths : list thread) : Prop := Forall (fun th => th_ops th = []) ths.
(** every index of the loop is given to exactly one thread, once *)
Definition partition (n : nat) (chunks : list (list nat)) : Prop := Permutation (concat chunks) (seq 0 n).

(** the end of the region: the private copies are combined in any order and any
    bracketing *)
Inductive combined (op : A -> A -> A) : list A -> A -> Prop :=
  | co_one a : combined op [a] a
  | co_two l1 l2 l a b : combined op l1 a -> combined op l2 b -> Permutation l (l1 ++ l2) ->
      combined op l (op a b).

(** ** Sequential meaning *)
Definition slot_of (ops : list mop) (s : S) : S :=
  fold_left (fun s o => match o with MW f => f s | _ => s end) ops s.
Fixpoint iter (ops : list mop) (s : S) (a : A) : option A :=
  match ops with
  | [] => Some a
  | MW f :: r => iter r (f s) a
  | MR g :: r => iter r s (g s a)
  | MT p :: r => if p a then None else iter r s a
  end.
(** what a thread that executes the indices [c] accumulates *)
Fixpoint accum (body : nat -> list mop) (m : list S) (c : list nat) (a : A) : option A :=
  match c with
  | [] => Some a
  | t :: r =>
      match nth_error m t with
      | None => None
      | Some s => match iter (body t) s a with None => None | Some a' => accum body m r a' end
      end
  end.
Fixpoint slots_from (body : nat -> list mop) (i : nat) (m : list S) : list S :=
  match m with [] => [] | s :: m' => slot_of (body i) s :: slots_from body (Datatypes.S i) m' end.

(** ** Proof *)
Definition view := nat -> option S.
Definition vput (t : nat) (f : S -> S) (v : view) : view :=
  fun i => if Nat.eqb i t then option_map f (v i) else v i.
Fixpoint eval (ops : list (nat * mop)) (v : view) (a : A) : option A :=
  match ops with
  | [] => Some a
  | (t, MW f) :: r => eval r (vput t f v) a
  | (t, MR g) :: r => match v t with None => None | Some s => eval r v (g s a) end
  | (t, MT p) :: r => if p a then None else eval r v a
  end.
Definition at_idx (t : nat) (ops : list (nat * mop)) : list mop :=
  map snd (filter (fun o => Nat.eqb (fst o) t) ops).

Lemma upd_nth t f m i : nth_error (upd t f m) i = vput t f (nth_error m) i.
Proof.
elim: m t i => [|s m IH] [|t] [|i] //=; rewrite /vput /=; try by [case: (Nat.eqb _ _)|].
by rewrite IH.
Qed.
Lemma upd_len t f m : length (upd t f m) = length m.
Proof. by elim: m t => [|s m IH] [|t] //=; rewrite IH. Qed.

Lemma eval_ext ops v w a : (forall t o, In (t, o) ops -> v t = w t) -> eval ops v a = eval ops w a.
Proof.
elim: ops v w a => [|[t [f|g|p]] r IH] v w a h //=.
- apply: IH => i o hi; rewrite /vput; case: (Nat.eqb_spec i t) => [->|_].
  + by rewrite (h t (MW f)) //; left.
  + by apply: (h i o); right.
- rewrite (h t (MR g) (or_introl _ (eq_refl _))).
  by case: (w t) => // s; apply: IH => i o hi; apply: (h i o); right.
- by case: (p a) => //; apply: IH => i o hi; apply: (h i o); right.
Qed.

Lemma eval_block body t r v a : (forall o, ~ In (t, o) r) ->
  eval (map (pair t) body ++ r) v a =
  match v t with
  | None => eval (map (pair t) body ++ r) v a
  | Some s => match iter body s a with None => None | Some a' => eval r v a' end
  end.
Proof.
move=> hr; case e: (v t) => [s|] //.
elim: body v s e a => [|[f|g|p] b IH] v s e a //=.
- have e2 : vput t f v t = Some (f s) by rewrite /vput Nat.eqb_refl e.
  rewrite (IH _ _ e2).
  case: (iter b (f s) a) => // a'; apply: eval_ext => i o hi; rewrite /vput.
  by case: (Nat.eqb_spec i t) => // ei; case: (hr o); rewrite -ei.
- by rewrite e; apply: IH.
- by case: (p a) => //; apply: IH.
Qed.

Lemma chunk_ops_in body c t o : In (t, o) (chunk_ops body c) -> In t c.
Proof.
move=> /in_flat_map [i [hi /in_map_iff [x [[e _] _]]]]. by rewrite -e.
Qed.
Lemma eval_chunk body c m a : NoDup c -> (forall t, In t c -> t < length m) ->
  eval (chunk_ops body c) (nth_error m) a = accum body m c a.
Proof.
elim: c a => [|t c IH] a nd hl //=.
move: (nd) => /NoDup_cons_iff [nt nd'].
rewrite eval_block; first by move=> o /chunk_ops_in.
have := hl t (or_introl (eq_refl _)); move/nth_error_Some; case: (nth_error m t) => [s|] // _.
case: (iter (body t) s a) => // a'; apply: IH => // i hi; apply: hl; by right.
Qed.

Lemma at_idx_chunk body c t : NoDup c -> In t c -> at_idx t (chunk_ops body c) = body t.
Proof.
have none r : ~ In t r -> at_idx t (chunk_ops body r) = [].
  elim: r => [|i r IH] //= h; rewrite /at_idx /chunk_ops /= filter_app map_app.
  rewrite -/(chunk_ops body r) -/(at_idx t (chunk_ops body r)) IH; first by move=> hi; apply: h; right.
  rewrite app_nil_r; elim: (body i) => [|o b IHb] //=.
  by case: (Nat.eqb_spec i t) => [e|_] //; case: h; left.
have all (b : list mop) : map snd (filter (fun o => fst o =? t) (map (pair t) b)) = b.
  by elim: b => [|o b IHb] //=; rewrite Nat.eqb_refl /= IHb.
elim: c => [|i c IH] // /NoDup_cons_iff [ni nd] /=.
rewrite /at_idx /chunk_ops /= filter_app map_app -/(chunk_ops body c) -/(at_idx t (chunk_ops body c)).
case=> [e|hi].
- move: ni; rewrite e => ni; by rewrite all none // app_nil_r.
- rewrite IH //; have ne : i <> t by move=> e; apply: ni; rewrite e.
  suff -> : map snd (filter (fun o : nat * mop => fst o =? t) (map (pair i) (body i))) = [] by [].
  by elim: (body i) => [|o b IHb] //=; case: (Nat.eqb_spec i t).
Qed.

Section Inv.
Variables (body : nat -> list mop) (a0 : A) (chunks : list (list nat)) (m0 : list S).
Hypothesis hp : partition (length m0) chunks.

(** thread [i] still has to do [ops]; it accumulated [a] *)
Definition tinv (m : list S) (c : list nat) (th : thread) : Prop :=
  [/\ (forall t o, In (t, o) (th_ops th) -> In t c),
      eval (th_ops th) (nth_error m) (th_acc th) = accum body m0 c a0
    & forall t, In t c -> option_map (slot_of (at_idx t (th_ops th))) (nth_error m t)
                          = option_map (slot_of (body t)) (nth_error m0 t)].
Definition inv (x : cfg) : Prop :=
  match x with
  | Dead => exists c, In c chunks /\ accum body m0 c a0 = None
  | Run m ths => length m = length m0 /\ Forall2 (tinv m) chunks ths
  end.

Lemma disjoint_chunks c1 p q r t : chunks = p ++ c1 :: q -> In t c1 -> In r (p ++ q) -> ~ In t r.
Proof.
move=> e h1 h2 h3; have nd : NoDup (concat chunks).
  by apply: (Permutation_NoDup (Permutation_sym hp)); apply: seq_NoDup.
have hx : Permutation (concat chunks) (c1 ++ concat (p ++ q)).
  by rewrite e !concat_app /= Permutation_app_swap_app.
move: (Permutation_NoDup hx nd) => nd2.
have hin : In t (concat (p ++ q)) by apply/in_concat; exists r.
elim: c1 h1 nd2 {e hx} => [|x c1 IH] //= [->|h1] /NoDup_cons_iff [hn nd2]; last exact: IH.
by apply: hn; apply/in_or_app; right.
Qed.
Lemma chunk_NoDup c1 : In c1 chunks -> NoDup c1 /\ (forall t, In t c1 -> t < length m0).
Proof.
move=> hi; split.
- have nd : NoDup (concat chunks).
    by apply: (Permutation_NoDup (Permutation_sym hp)); apply: seq_NoDup.
  elim: chunks hi nd => [|x l IH] //= [->|hi] nd.
  + elim: c1 nd {IH} => [|y c1 IH] /= nd; first by constructor.
    move/NoDup_cons_iff: nd => [h1 h2]; constructor; last exact: IH.
    by move=> h; apply: h1; apply/in_or_app; left.
  + by apply: IH => //; move: nd; elim: x => [|y x IH2] //= /NoDup_cons_iff [_ /IH2].
- move=> t ht; have : In t (concat chunks) by apply/in_concat; exists c1.
  by move/(Permutation_in _ hp)/in_seq => [_].
Qed.

Lemma inv_start : inv (fork body a0 chunks m0).
Proof.
split=> //; have hsub : forall c, In c chunks -> In c chunks by [].
move: {1}chunks hsub; have gen l : (forall c, In c l -> In c chunks) ->
  Forall2 (tinv m0) l (map (fun c => mkThread a0 (chunk_ops body c)) l); last by move=> _ _; apply: gen.
elim: l => [|c l IH] h; first by constructor.
constructor; last by apply: IH => x hx; apply: h; right.
have [nd hl] : NoDup c /\ (forall t, In t c -> t < length m0) by apply: chunk_NoDup; apply: h; left.
split=> /=; first by move=> t o /chunk_ops_in.
- exact: eval_chunk.
- by move=> t ht; rewrite at_idx_chunk.
Qed.

Lemma at_cons_eq t o ops : at_idx t ((t, o) :: ops) = o :: at_idx t ops.
Proof. by rewrite /at_idx /= Nat.eqb_refl. Qed.
Lemma at_cons_ne t i o ops : i <> t -> at_idx t ((i, o) :: ops) = at_idx t ops.
Proof. by rewrite /at_idx /= => h; case: (Nat.eqb_spec i t). Qed.

Lemma inv_step x y : pstep x y -> inv x -> inv y.
Proof.
have split3 m p a t o ops q : inv (Run m (p ++ mkThread a ((t, o) :: ops) :: q)) ->
  exists cp c cq, [/\ chunks = cp ++ c :: cq, length m = length m0,
    Forall2 (tinv m) cp p, Forall2 (tinv m) cq q & tinv m c (mkThread a ((t, o) :: ops))].
  move=> [hlen /Forall2_app_inv_r [cp [cq [hcp [hcq ech]]]]].
  case: cq hcq ech => [|c cq] hcq ech; first by inversion hcq.
  by inversion hcq; subst; exists cp, c, cq; split.
case=> {x y} [m p q a t f ops|m p q a t g ops s hs|m p q a t r ops hr|m p q a t r ops hr] /split3 [cp [c [cq [ech hlen hcp hcq [h1 h2 h3]]]]].
- have tc : In t c by apply: (h1 t (MW f)); left.
  have other r th : In r (cp ++ cq) -> tinv m r th -> tinv (upd t f m) r th.
  { move=> hr [g1 g2 g3]; have nt := disjoint_chunks ech tc hr; split=> //.
    + rewrite -g2; apply: eval_ext => i o hi; rewrite upd_nth /vput.
      by case: (Nat.eqb_spec i t) => // e; case: nt; rewrite -e; apply: (g1 i o).
    + move=> i hi; rewrite upd_nth /vput; case: (Nat.eqb_spec i t) => [e|_]; last exact: g3.
      by case: nt; rewrite -e. }
  split; first by rewrite upd_len.
  rewrite ech; apply: Forall2_app; [|constructor].
  + elim: hcp other {ech} => [|r th lr lt hd _ IH] other; constructor; first by apply: other => //; left.
    by apply: IH => r' th' hr'; apply: other; right.
  + split=> /=; first by move=> i o hi; apply: (h1 i o); right.
    * rewrite -h2 /=; apply: eval_ext => i o hi; exact: upd_nth.
    * move=> i hi; move: (h3 i hi); rewrite upd_nth /vput /=.
      case: (Nat.eqb_spec i t) => [->|ne]; last by rewrite at_cons_ne //; move=> e; apply: ne.
      by rewrite at_cons_eq; case: (nth_error m t).
  + elim: hcq other {ech} => [|r th lr lt hd _ IH] other; constructor.
      by apply: other => //; apply/in_or_app; right; left.
    apply: IH => r' th' hr'; apply: other; move: hr'; rewrite !in_app_iff /=; tauto.
- split=> //; rewrite ech; apply: Forall2_app => //; constructor=> //; split=> /=.
  + by move=> i o hi; apply: (h1 i o); right.
  + by rewrite -h2 /= hs.
  + move=> i hi; rewrite -h3 //=.
    by case: (Nat.eq_dec t i) => [->|ne]; [rewrite at_cons_eq|rewrite at_cons_ne].
- split=> //; rewrite ech; apply: Forall2_app => //; constructor=> //; split=> /=.
  + by move=> i o hi; apply: (h1 i o); right.
  + by rewrite -h2 /= hr.
  + move=> i hi; rewrite -h3 //=.
    by case: (Nat.eq_dec t i) => [->|ne]; [rewrite at_cons_eq|rewrite at_cons_ne].
- exists c; split; first by rewrite ech; apply/in_or_app; right; left.
  by rewrite -h2 /= hr.
Qed.
Lemma inv_steps x y : psteps x y -> inv x -> inv y.
Proof. by elim=> // {}x {}y z h _ IH hx; apply: IH; apply: inv_step hx. Qed.

Lemma slots_from_nth i m t : nth_error (slots_from body i m) t = option_map (slot_of (body (i + t))) (nth_error m t).
Proof.
elim: m i t => [|s m IH] i [|t] //=; first by rewrite Nat.add_0_r.
by rewrite IH Nat.add_succ_r.
Qed.
Lemma nth_ext_len (l1 l2 : list S) : (forall i, i < length l2 -> nth_error l1 i = nth_error l2 i) ->
  length l1 = length l2 -> l1 = l2.
Proof.
elim: l1 l2 => [|x l1 IH] [|y l2] //= h [e].
have [->] := h 0 (Nat.lt_0_succ _); congr cons; apply: IH => // i hi; apply: (h (Datatypes.S i)); exact: (proj1 (Nat.succ_lt_mono _ _)).
Qed.
Lemma slots_from_len i m : length (slots_from body i m) = length m.
Proof. by elim: m i => //= s m IH i; rewrite IH. Qed.

(** Whatever the schedule, a region that completes leaves in every slot what the
    iteration of that index leaves when run alone, and in every thread what the
    iterations of that thread accumulate when run one after the other. *)
Theorem omp_run m ths : psteps (fork body a0 chunks m0) (Run m ths) -> finished ths ->
  m = slots_from body 0 m0 /\ map (fun th => Some (th_acc th)) ths = map (fun c => accum body m0 c a0) chunks.
Proof.
move=> /inv_steps /(_ inv_start) [hlen h2] hf.
have h3 : Forall2 (fun c th => accum body m0 c a0 = Some (th_acc th) /\
     forall t, In t c -> nth_error m t = option_map (slot_of (body t)) (nth_error m0 t)) chunks ths.
  move: chunks h2 => ch h2; elim: h2 hf => [|c th lc lt [g1 g2 g3] _ IH] hf; first by constructor.
  move/Forall_cons_iff: hf => [e hf]; constructor; last exact: IH.
  rewrite e /= in g2 g3; split; first by rewrite -g2.
  by move=> t ht; rewrite -g3 //; case: (nth_error m t).
split; last first.
  by move: chunks h3 {h2} => ch h3; elim: h3 {hf} => [|c th lc lt [g1 _] _ IH] //=; rewrite IH g1.
apply: nth_ext_len; last by rewrite slots_from_len.
move=> i; rewrite slots_from_len slots_from_nth /= => hi.
have : In i (concat chunks) by apply: (Permutation_in _ (Permutation_sym hp)); apply/in_seq; lia.
case/in_concat => c [hc hic]; move: chunks h3 hc {h2} => ch h3 hc; elim: h3 hc {hf} => [|c' th lc lt [_ g] _ IH] //= [e|hc]; last exact: IH.
by rewrite -e in hic; apply: g.
Qed.
(** The process dies only if the partial accumulation of some thread throws. *)
Theorem omp_dead : psteps (fork body a0 chunks m0) Dead -> exists c, In c chunks /\ accum body m0 c a0 = None.
Proof. by move=> /inv_steps /(_ inv_start). Qed.
(** If the accumulation of some thread throws, the region never completes. *)
Theorem omp_throws m ths c : In c chunks -> accum body m0 c a0 = None ->
  psteps (fork body a0 chunks m0) (Run m ths) -> ~ finished ths.
Proof.
move=> hc hn hs hf; have [_ e] := omp_run hs hf.
have : In (accum body m0 c a0) (map (fun c => accum body m0 c a0) chunks) by apply: in_map.
by rewrite -e hn => /in_map_iff [th []].
Qed.

(** Every schedule ends: the number of steps is bounded, and a region that is
    neither complete nor dead can go on. *)
Definition todo (x : cfg) : nat :=
  match x with Dead => 0 | Run _ ths => fold_right (fun th n => length (th_ops th) + n) 0 ths end.
Lemma todo_app m p q : todo (Run m (p ++ q)) = todo (Run m p) + todo (Run m q).
Proof. rewrite /=; elim: p => [|th p IH] //=; by rewrite IH Nat.add_assoc. Qed.
Theorem omp_bounded x y : pstep x y -> todo y < todo x.
Proof. by case=> *; rewrite ?todo_app /=; lia. Qed.
Theorem omp_progress m ths : psteps (fork body a0 chunks m0) (Run m ths) -> finished ths \/ exists y, pstep (Run m ths) y.
Proof.
move=> /inv_steps /(_ inv_start) [hlen h2].
have hin th t o : In th ths -> In (t, o) (th_ops th) -> t < length m.
  move=> hi ho; have [c [hc ht]] : exists c, In c chunks /\ In t c.
    move: chunks h2 => ch h2; elim: h2 hi => [|c th' lc lt [g1 _ _] _ IH] //= [e|hi].
      by rewrite -e in ho; exists c; split; [left|apply: (g1 t o)].
    by have [c' [h1 h3]] := IH hi; exists c'; split=> //; right.
  by have [_ hl] := chunk_NoDup hc; rewrite hlen; apply: hl.
have [|hx] : finished ths \/ exists p a t o ops q, ths = p ++ mkThread a ((t, o) :: ops) :: q.
2: by left.
2:{ right; move: hx hin => [p [a [t [o [ops [q ->]]]]]] hin.
  case: o hin => [f|g|r] hin.
  + by exists (Run (upd t f m) (p ++ mkThread a ops :: q)); constructor.
  + have : t < length m.
      by apply: (hin (mkThread a ((t, MR g) :: ops)) t (MR g)); [apply/in_or_app; right; left|left].
    move/nth_error_Some; case e: (nth_error m t) => [s|] // _.
    by exists (Run m (p ++ mkThread (g s a) ops :: q)); apply: ps_reduce.
  + case e: (r a); first by exists Dead; apply: ps_throw.
    by exists (Run m (p ++ mkThread a ops :: q)); apply: ps_check. }
elim: ths {h2 hin} => [|[a [|[t o] ops]] l IH]; first by left; constructor.
- case: IH => [h|[p [a' [t [o [ops [q ->]]]]]]]; first by left; constructor.
  by right; exists (mkThread a [] :: p), a', t, o, ops, q.
- by right; exists [], a, t, o, ops, l.
Qed.
(** Unless some thread throws, every execution can be completed, and none dies. *)
Theorem omp_completes y : (forall c, In c chunks -> accum body m0 c a0 <> None) ->
  psteps (fork body a0 chunks m0) y -> exists m ths, psteps y (Run m ths) /\ finished ths.
Proof.
move=> hn; have [n hle] : exists n, todo y <= n by exists (todo y).
elim: n y hle => [|n IH] [m ths|] hle hy.
2,4: by have [c [h1 h2]] := omp_dead hy; case: (hn c h1).
- have [hf|[y' hs]] := omp_progress hy; first by exists m, ths; split=> //; constructor.
  by have := omp_bounded hs; lia.
- have [hf|[y' hs]] := omp_progress hy; first by exists m, ths; split=> //; constructor.
  have hb := omp_bounded hs.
  have hy' : psteps (fork body a0 chunks m0) y'.
    elim: hy hs => [x|x x1 z hx _ IH2] hs; first by apply: pss_step hs (pss_refl _).
    by apply: pss_step hx _; apply: IH2.
  have hl : todo y' <= n by lia.
  have [m' [ths' [h1 h2]]] := IH y' hl hy'.
  by exists m', ths'; split=> //; apply: pss_step hs h1.
Qed.

(** If some thread throws, every execution can only end in the death of the process. *)
Theorem omp_dies c y : In c chunks -> accum body m0 c a0 = None ->
  psteps (fork body a0 chunks m0) y -> psteps y (Dead).
Proof.
move=> hc hn; have [n hle] : exists n, todo y <= n by exists (todo y).
elim: n y hle => [|n IH] [m ths|] hle hy; try exact: pss_refl.
- have [hf|[y' hs]] := omp_progress hy; first by case: (omp_throws hc hn hy hf).
  by have := omp_bounded hs; lia.
- have [hf|[y' hs]] := omp_progress hy; first by case: (omp_throws hc hn hy hf).
  have hb := omp_bounded hs.
  have hy' : psteps (fork body a0 chunks m0) y'.
    elim: hy hs => [x|x x1 z hx _ IH2] hs; first by apply: pss_step hs (pss_refl _).
    by apply: pss_step hx _; apply: IH2.
  have hl : todo y' <= n by lia.
  by apply: pss_step hs (IH y' hl hy').
Qed.

(** ** Reductions *)
Section Reduce.
Variables (op : A -> A -> A) (P : A -> Prop) (g : nat -> S -> A).
Hypothesis Pop : forall a b, P a -> P b -> P (op a b).
Hypothesis opA : forall a b d, P a -> P b -> P d -> op a (op b d) = op (op a b) d.
Hypothesis opC : forall a b, P a -> P b -> op a b = op b a.
Hypothesis P0 : P a0.
Hypothesis op0 : forall a, P a -> op a0 a = a.
Hypothesis Pg : forall t s, P (g t s).
Hypothesis body_adds : forall t s a a', P a -> iter (body t) s a = Some a' -> a' = op a (g t s).

Definition total (l : list A) : A := fold_right op a0 l.
Lemma total_P l : Forall P l -> P (total l).
Proof. by elim=> [|a r h _ IH] //=; apply: Pop. Qed.
Lemma total_app l1 l2 : Forall P l1 -> Forall P l2 -> total (l1 ++ l2) = op (total l1) (total l2).
Proof.
move=> h1 h2; elim: h1 => [|a r h h1 IH] /=; first by rewrite op0 //; apply: total_P.
by rewrite IH opA //; apply: total_P.
Qed.
Lemma total_perm l1 l2 : Permutation l1 l2 -> Forall P l1 -> total l1 = total l2.
Proof.
elim=> [|x l l' _ IH|x y l|l l' l'' h1 IH1 h2 IH2] //=.
- by move=> h; inversion h; rewrite IH.
- move=> h; inversion h as [|? ? hy h']; inversion h' as [|? ? hx h''].
  have hT := total_P h''; by rewrite (opA hy hx hT) (opC hy hx) -(opA hx hy hT).
- move=> h; rewrite IH1 // IH2 //. exact: (Permutation_Forall h1 h).
Qed.
Lemma combined_total l a : combined op l a -> Forall P l -> a = total l.
Proof.
elim=> [b h|l1 l2 l3 b d _ IH1 _ IH2 hpm h].
- by inversion h; rewrite /= opC // op0.
- have h12 := Permutation_Forall hpm h.
  move/Forall_app: (h12) => [h1 h2].
  by rewrite (total_perm hpm h) total_app // -(IH1 h1) -(IH2 h2).
Qed.
Definition contrib (t : nat) : A := match nth_error m0 t with Some s => g t s | None => a0 end.
Lemma contrib_P t : P (contrib t). Proof. by rewrite /contrib; case: (nth_error m0 t). Qed.
Lemma accum_total ch a a' : P a -> accum body m0 ch a = Some a' -> a' = op a (total (map contrib ch)).
Proof.
elim: ch a => [|t ch IH] a ha /=; first by case=> <-; rewrite opC // op0.
case e: (nth_error m0 t) => [s|] //; case e1: (iter _ _ _) => [a1|] // h.
have ea := body_adds ha e1.
have ha1 : P a1 by rewrite ea; apply: Pop.
have hall : Forall P (map contrib ch) by apply/Forall_forall => x /in_map_iff [i [<- _]]; apply: contrib_P.
have ec : contrib t = g t s by rewrite /contrib e.
by rewrite (IH a1 ha1 h) ea ec (opA ha (Pg t s) (total_P hall)).
Qed.
Definition contribs_from (i : nat) (m : list S) : list A := map (fun p => g (fst p) (snd p)) (combine (seq i (length m)) m).

(** The reduced value is the combination of the contributions of the iterations
    in index order, for every schedule, partition and order of combination. *)
Theorem omp_reduce m ths w : psteps (fork body a0 chunks m0) (Run m ths) -> finished ths ->
  combined op (a0 :: map th_acc ths) w -> w = fold_left op (contribs_from 0 m0) a0.
Proof.
move=> hs hf hw; have [_ e] := omp_run hs hf.
have h1 : Forall2 (fun c th => th_acc th = total (map contrib c)) chunks ths.
  have key c a' : accum body m0 c a0 = Some a' -> a' = total (map contrib c).
    move=> /(accum_total P0) ->; rewrite op0 //; apply: total_P.
    by apply/Forall_forall => x /in_map_iff [i [<- _]]; apply: contrib_P.
  move: chunks e => ch; elim: ths ch {hs hf hw} => [|th l IH] [|c ch] //= [e1 e2]; constructor; last exact: IH.
  by apply: key.
have hPc l : Forall P (map contrib l) by apply/Forall_forall => x /in_map_iff [i [<- _]]; apply: contrib_P.
have h2 : Forall P (map th_acc ths).
  move: chunks h1 => ch; elim=> [|c th lc lt h _ IH] //=; constructor=> //; rewrite h; exact: total_P.
have -> : w = total (a0 :: map th_acc ths) by apply: combined_total hw _; constructor.
have -> : total (a0 :: map th_acc ths) = total (map contrib (concat chunks)).
  rewrite /= op0; first exact: total_P.
  move: chunks h1 => ch; elim=> [|c th lc lt h _ IH] //=.
  by rewrite map_app total_app //= h -IH.
have -> : total (map contrib (concat chunks)) = total (map contrib (seq 0 (length m0))).
  by apply: total_perm => //; apply: Permutation_map.
have -> : map contrib (seq 0 (length m0)) = contribs_from 0 m0.
  rewrite /contribs_from.
  suff gen l i : (forall j, nth_error l j = nth_error m0 (i + j)) ->
     map contrib (seq i (length l)) = map (fun p => g (fst p) (snd p)) (combine (seq i (length l)) l) by apply: gen.
  elim: l i => [|s l IH] i h //=; rewrite IH.
    by move=> j; rewrite Nat.add_succ_comm -h.
  by congr cons; rewrite /contrib -[i]Nat.add_0_r -h /= Nat.add_0_r.
have hc : Forall P (contribs_from 0 m0) by apply/Forall_forall => x /in_map_iff [p [<- _]].
suff gen l a : P a -> Forall P l -> op a (total l) = fold_left op l a.
  by rewrite -gen // op0 //; apply: total_P.
elim: l a => [|b l IH] a ha hl /=; first by rewrite opC // op0.
by inversion hl; rewrite opA //; [apply: total_P|apply: IH => //; apply: Pop].
Qed.
End Reduce.
End Inv.
End OMP.
