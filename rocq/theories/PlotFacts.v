(** * Facts about the plotting model *)

From Coq Require Import ZArith String List.
From mathcomp Require Import all_ssreflect all_algebra ssrZ.
From Verif Require Import Py Complex Signal Eigen Plot PyFacts.

Set Implicit Arguments.
Unset Strict Implicit.
Unset Printing Implicit Defensive.

Import GRing.Theory Num.Theory Order.Theory.
Local Open Scope ring_scope.
Local Open Scope draw_scope.

(** ** Lists and dictionaries *)

Lemma pair_eqbE (e e' : Z * Z) : pair_eqb e e' = (e == e').
Proof. by apply/idP/eqP => /pair_eqb_spec. Qed.

Lemma ZeqbE (a b : Z) : Z.eqb a b = (a == b).
Proof. by apply/idP/eqP => /Z.eqb_eq. Qed.

Lemma in_mem (A : eqType) (x : A) l : In x l <-> x \in l.
Proof.
elim: l => [|a l IH] //=; rewrite in_cons; split=> [[->|/IH ->]|/orP[/eqP ->|/IH h]]; rewrite ?eqxx ?orbT //; by [left|right].
Qed.

Lemma py_inE (A : eqType) (eqb : A -> A -> bool) (h : forall a b, eqb a b = (a == b)) x l : py_in eqb x l = (x \in l).
Proof. by elim: l => [|a l IH] //=; rewrite in_cons h IH eq_sym. Qed.

Lemma py_in_pair x l : py_in pair_eqb x l = (x \in l).
Proof. exact: py_inE pair_eqbE _ _. Qed.

Lemma py_in_str x (l : seq string) : py_in String.eqb x l = true <-> In x l.
Proof. by apply: py_in_iff; apply: String.eqb_eq. Qed.

Lemma add_key_mem ks x y : (y \in add_key ks x) = (y == x) || (y \in ks).
Proof.
rewrite /add_key; rewrite (py_inE ZeqbE); case: ifP => h; last by rewrite mem_cat mem_seq1 orbC.
by case: eqP => // ->; rewrite h.
Qed.

Lemma add_key_uniq ks x : uniq ks -> uniq (add_key ks x).
Proof.
rewrite /add_key (py_inE ZeqbE); case: ifP => h u //.
by rewrite cat_uniq u /= orbF h.
Qed.

Lemma fold_keys_mem (E : seq (Z * Z)) ks y :
  (y \in fold_left (fun ks e => add_key (add_key ks (fst e)) (snd e)) E ks) =
  (y \in ks) || has (fun e => (y == e.1) || (y == e.2)) E.
Proof.
elim: E ks => [|e E IH] ks /=; first by rewrite orbF.
by rewrite IH !add_key_mem; case: (y \in ks); case: (y == e.1); case: (y == e.2).
Qed.

Lemma fold_keys_uniq (E : seq (Z * Z)) ks : uniq ks ->
  uniq (fold_left (fun ks e => add_key (add_key ks (fst e)) (snd e)) E ks).
Proof. by elim: E ks => [|e E IH] ks //= u; apply: IH; do 2!apply: add_key_uniq. Qed.

Lemma fold_nodes_mem N ks y : (y \in fold_left add_key N ks) = (y \in ks) || (y \in N).
Proof.
elim: N ks => [|x N IH] ks /=; first by rewrite orbF.
by rewrite IH add_key_mem in_cons; case: (y == x); case: (y \in ks).
Qed.

Lemma fold_nodes_uniq N ks : uniq ks -> uniq (fold_left add_key N ks).
Proof. by elim: N ks => [|x N IH] ks //= u; apply: IH; apply: add_key_uniq. Qed.

Lemma graph_keys_mem N E y :
  (y \in graph_keys N E) = (y \in N) || has (fun e => (y == e.1) || (y == e.2)) E.
Proof. by rewrite /graph_keys fold_keys_mem fold_nodes_mem in_nil. Qed.

Lemma graph_keys_uniq N E : uniq (graph_keys N E).
Proof. by apply: fold_keys_uniq; apply: fold_nodes_uniq. Qed.

Lemma distinct_edges (E acc : seq (Z * Z)) : uniq acc ->
  let D := foldl (fun l e => if py_in pair_eqb e l then l else rcons l e) acc E in
  uniq D /\ forall e, (e \in D) = (e \in acc) || (e \in E).
Proof.
elim: E acc => [|a E IH] acc u /=; first by split=> // e; rewrite orbF.
rewrite py_in_pair; case: ifP => h.
  by have [h1 h2] := IH acc u; split=> // e; rewrite h2 in_cons; case: eqP => // ->; rewrite h.
have [|h1 h2] := IH (rcons acc a); first by rewrite rcons_uniq h u.
by split=> // e; rewrite h2 mem_rcons !in_cons; case: (e == a); rewrite ?orbT.
Qed.

Lemma distinct_id (E acc : seq (Z * Z)) : uniq (acc ++ E) ->
  foldl (fun l e => if py_in pair_eqb e l then l else rcons l e) acc E = acc ++ E.
Proof.
elim: E acc => [|a E IH] acc /=; first by rewrite cats0.
rewrite py_in_pair => u; have -> : a \in acc = false.
  by move: u; rewrite -cat_rcons cat_uniq rcons_uniq => /andP[/andP[/negbTE]].
by rewrite IH cat_rcons.
Qed.

Lemma group_perm (K : seq Z) (D : seq (Z * Z)) : uniq K ->
  perm_eq (flatten [seq [seq e <- D | Z.eqb e.1 u] | u <- K]) [seq e <- D | e.1 \in K].
Proof.
elim: K => [|u K IH] /=; first by move=> _; rewrite (@eq_filter _ _ pred0) ?filter_pred0.
case/andP=> uK /IH p.
rewrite (perm_trans (perm_cat (perm_refl _) p)) //.
rewrite perm_sym -(perm_filterC (fun e => e.1 == u)) perm_cat // -filter_predI.
  by rewrite (@eq_filter _ _ (fun e => Z.eqb e.1 u)) // => e /=; rewrite ZeqbE in_cons; case: eqP.
rewrite (@eq_filter _ _ (fun e => e.1 \in K)) // => e /=; rewrite in_cons.
by case: eqP => //= ->; rewrite (negbTE uK).
Qed.

Lemma digraph_perm E : exists D, [/\ uniq D, D =i E & perm_eq (digraph_edges E) D].
Proof.
have [u m] := @distinct_edges E [::] isT.
exists (foldl (fun l e => if py_in pair_eqb e l then l else rcons l e) [::] E); split=> //.
rewrite /digraph_edges; apply: (perm_trans (group_perm _ (graph_keys_uniq _ _))).
rewrite (_ : filter _ _ = foldl (fun l e => if py_in pair_eqb e l then l else rcons l e) [::] E) //.
apply/all_filterP/allP => e; rewrite m /= => eE.
by rewrite graph_keys_mem; apply/hasP; exists e; rewrite ?eqxx.
Qed.

Lemma digraph_mem E : digraph_edges E =i E.
Proof. by have [D [_ m p]] := digraph_perm E => e; rewrite (perm_mem p) m. Qed.

Lemma digraph_uniq E : uniq (digraph_edges E).
Proof. by have [D [u _ p]] := digraph_perm E; rewrite (perm_uniq p). Qed.

Lemma digraph_nil E : nilp (digraph_edges E) = nilp E.
Proof.
case: E => [|e E] //; have : e \in digraph_edges (e :: E) by rewrite digraph_mem in_cons eqxx.
by case: (digraph_edges _).
Qed.

Lemma dgetZ_mem V (d : dict Z V) k : (exists v, dget Z.eqb d k = Ok v) <-> k \in dkeys d.
Proof.
elim: d => [|[k' v'] d IH] /=; first by split=> [[]|].
rewrite in_cons ZeqbE eq_sym; case: eqP => /= _; last exact: IH.
by split=> // _; exists v'.
Qed.

Lemma dgetZ_Raise V (d : dict Z V) k e : dget Z.eqb d k = Raise e -> e = KeyError /\ k \notin dkeys d.
Proof.
elim: d => [|[k' v'] d IH] /=; first by case=> <-.
by rewrite in_cons ZeqbE eq_sym; case: eqP => //= _ /IH.
Qed.

Lemma dgetZ_not V (d : dict Z V) k : k \notin dkeys d -> dget Z.eqb d k = Raise KeyError.
Proof.
by move=> h; case e: (dget _ d k) => [v|x]; [move: h; rewrite (proj1 (dgetZ_mem _ _)) //; exists v | have [->] := dgetZ_Raise e].
Qed.

Lemma dgetZ_In V (d : dict Z V) k v : dget Z.eqb d k = Ok v -> In v (dvalues d).
Proof.
elim: d => [|[k' v'] d IH] //=; case: ifP => _; first by case=> ->; left.
by move/IH; right.
Qed.

Lemma dset_new (K : eqType) V (eqb : K -> K -> bool) (h : forall a b, eqb a b = (a == b)) (d : dict K V) k v :
  k \notin dkeys d -> dset eqb d k v = d ++ [:: (k, v)].
Proof.
elim: d => [|[k' v'] d IH] //=; rewrite in_cons negb_or h eq_sym => /andP[/negbTE -> /IH ->] //.
Qed.

Lemma dict_of_uniq (K : eqType) V (eqb : K -> K -> bool) (h : forall a b, eqb a b = (a == b)) (l : seq (K * V)) :
  uniq [seq x.1 | x <- l] -> dict_of eqb l = l.
Proof.
rewrite /dict_of => u; suff: forall d, uniq [seq x.1 | x <- d ++ l] ->
    fold_left (fun d kv => dset eqb d (fst kv) (snd kv)) l d = d ++ l by move/(_ [::] u).
elim: l {u} => [|[k v] l IH] d /=; first by rewrite cats0.
move=> u; rewrite (dset_new h) /=; last first.
  by move: u; rewrite map_cat cat_uniq /= negb_or => /and3P[_ /andP[]].
by rewrite IH -catA.
Qed.

Lemma mapM_total A B (f : A -> res B) (g : A -> B) l : (forall a, In a l -> f a = Ok (g a)) -> mapM f l = Ok (map g l).
Proof.
elim: l => [|a l IH] //= h; rewrite (h a) /=; last by left.
by rewrite IH // => b hb; apply: h; right.
Qed.

(** ** Runs *)

Section Runs.
Variable R : realFieldType.
Implicit Types (s : pstate R) (pos : positions R).

Definition added s (cs : seq (cmd R)) := mkP (p_pos s) (p_cur s) (p_next s) (p_cmds s ++ cs).

Lemma added_nil s : added s [::] = s.
Proof. by case: s => a b c d; rewrite /added /= cats0. Qed.

Lemma added_cat s a b : added (added s a) b = added s (a ++ b).
Proof. by rewrite /added /= catA. Qed.

Lemma emitE s c : emit c s = (added s [:: c], Ok tt).
Proof. by rewrite /emit /added cats1. Qed.

Lemma dbind_Ok A B (m : draw R A) (f : A -> draw R B) s s' a : m s = (s', Ok a) -> dbind m f s = f a s'.
Proof. by rewrite /dbind => ->. Qed.

Lemma dbind_Raise A B (m : draw R A) (f : A -> draw R B) s s' e : m s = (s', Raise e) -> dbind m f s = (s', Raise e).
Proof. by rewrite /dbind => ->. Qed.

Lemma dbind_inv A B (m : draw R A) (f : A -> draw R B) s s' b : dbind m f s = (s', Ok b) ->
  exists a s1, m s = (s1, Ok a) /\ f a s1 = (s', Ok b).
Proof. by rewrite /dbind; case: (m s) => s1 [a|e] // h; exists a, s1. Qed.

Lemma node_posE s pos n : p_pos s = Some pos -> node_pos n s = (s, dget Z.eqb pos n).
Proof. by move=> h; rewrite /node_pos /dbind /get_pos /= h. Qed.

Lemma dmap_pure A B (f : A -> draw R B) (g : A -> res B) l s :
  (forall a, In a l -> f a s = (s, g a)) -> dmap l f s = (s, mapM g l).
Proof.
elim: l => [|a l IH] //= h; rewrite /dbind h; last by left.
case: (g a) => //= b; rewrite IH; last by move=> x hx; apply: h; right.
by case: (mapM g l).
Qed.

Lemma dmap_nodes s pos l : p_pos s = Some pos -> dmap l (@node_pos R) s = (s, mapM (dget Z.eqb pos) l).
Proof. by move=> h; apply: dmap_pure => a _; apply: node_posE. Qed.

Lemma dfor_added A (f : A -> draw R unit) (c : A -> seq (cmd R)) l s :
  (forall a s', In a l -> p_pos s' = p_pos s -> p_cur s' = p_cur s -> f a s' = (added s' (c a), Ok tt)) ->
  dfor l f s = (added s (flatten (map c l)), Ok tt).
Proof.
elim: l s => [|a l IH] s h /=; first by rewrite added_nil.
rewrite (dbind_Ok _ (h a s _ _ _)) //; last by left.
by rewrite IH ?added_cat // => b s' hb h1 h2; apply: h => //; right.
Qed.

(** ** Frames *)

Definition mn (l : seq R) := foldl Num.min (head 0 l) (behead l).
Definition mx (l : seq R) := foldl Num.max (head 0 l) (behead l).

Lemma foldl_min (l : seq R) a : foldl Num.min a l \in a :: l /\ forall x, x \in a :: l -> foldl Num.min a l <= x.
Proof.
elim: l a => [|b l IH] a /=.
  by rewrite in_cons eqxx; split=> // x; rewrite mem_seq1 => /eqP ->.
have [h1 h2] := IH (Num.min a b); split.
  move: h1; rewrite !in_cons => /orP[/eqP ->|->]; last by rewrite !orbT.
  by rewrite /Num.min; case: ifP => _; rewrite eqxx ?orbT.
have h := h2 _ (mem_head _ _).
move=> x; rewrite !in_cons => /or3P[/eqP ->|/eqP ->|xl].
- by apply: le_trans h _; rewrite le_minl lexx.
- by apply: le_trans h _; rewrite le_minl lexx orbT.
- by apply: h2; rewrite in_cons xl orbT.
Qed.

Lemma foldl_max (l : seq R) a : foldl Num.max a l \in a :: l /\ forall x, x \in a :: l -> x <= foldl Num.max a l.
Proof.
elim: l a => [|b l IH] a /=.
  by rewrite in_cons eqxx; split=> // x; rewrite mem_seq1 => /eqP ->.
have [h1 h2] := IH (Num.max a b); split.
  move: h1; rewrite !in_cons => /orP[/eqP ->|->]; last by rewrite !orbT.
  by rewrite /Num.max; case: ifP => _; rewrite eqxx ?orbT.
have h := h2 _ (mem_head _ _).
move=> x; rewrite !in_cons => /or3P[/eqP ->|/eqP ->|xl].
- by apply: le_trans h; rewrite le_maxr lexx.
- by apply: le_trans h; rewrite le_maxr lexx orbT.
- by apply: h2; rewrite in_cons xl orbT.
Qed.

Lemma mn_spec l : l != [::] -> mn l \in l /\ forall x, x \in l -> mn l <= x.
Proof. by case: l => // a l _; apply: foldl_min. Qed.
Lemma mx_spec l : l != [::] -> mx l \in l /\ forall x, x \in l -> x <= mx l.
Proof. by case: l => // a l _; apply: foldl_max. Qed.

Lemma list_minE l : l != [::] -> list_min l = Ok (mn l).
Proof. by case: l. Qed.
Lemma list_maxE l : l != [::] -> list_max l = Ok (mx l).
Proof. by case: l. Qed.

Definition xs pos : seq R := [seq p.2.1 | p <- pos].
Definition ys pos : seq R := [seq p.2.2 | p <- pos].
Definition pad (l : seq R) := (mx l - mn l) * (5%:R / 100%:R).
Definition frame (ax : nat) pos :=
  Limits ax (mn (xs pos) - pad (xs pos)) (mx (xs pos) + pad (xs pos)) (mn (ys pos) - pad (ys pos)) (mx (ys pos) + pad (ys pos)).
Definition square (ax : nat) : cmd R := Limits ax (- tenth R 11) (tenth R 11) (- tenth R 11) (tenth R 11).

Variable layout : seq Z -> positions R.

Lemma init_axes_some sc ax s pos : p_pos s = Some pos -> pos <> [::] ->
  init_axes layout sc ax s = (added s [:: frame ax pos], Ok tt).
Proof. by case: pos => // p pos e _; rewrite /init_axes /dbind /get_pos /= e /= emitE. Qed.

Lemma init_axes_empty sc ax s : p_pos s = Some [::] -> init_axes layout sc ax s = (s, Raise ValueError).
Proof. by move=> e; rewrite /init_axes /dbind /get_pos /= e. Qed.

Definition placed s pos := mkP (Some pos) (p_cur s) (p_next s) (p_cmds s).

Lemma init_axes_none sc ax s : p_pos s = None ->
  init_axes layout sc ax s = (added (placed s (layout (graph_keys [::] (sc_edges sc)))) [:: square ax], Ok tt).
Proof. by move=> e; rewrite /init_axes /dbind /get_pos /= e emitE. Qed.

Lemma placed_id s pos : p_pos s = Some pos -> placed s pos = s.
Proof. by case: s => a b c d /= ->. Qed.

(** The three cases together: the positions used from then on and the command emitted. *)
Definition the_pos sc s := match p_pos s with Some pos => pos | None => layout (graph_keys [::] (sc_edges sc)) end.
Definition the_frame ax s := match p_pos s with Some pos => frame ax pos | None => square ax end.

Lemma init_axes_run sc ax s : p_pos s <> Some [::] ->
  init_axes layout sc ax s = (added (placed s (the_pos sc s)) [:: the_frame ax s], Ok tt).
Proof.
rewrite /the_pos /the_frame; case e: (p_pos s) => [pos|] h; last exact: init_axes_none.
by rewrite (init_axes_some sc ax e) ?placed_id // => z; apply: h; rewrite z.
Qed.

(** ** Keywords *)

Lemma arg_restrict params (kw : kwargs R) name d : In name params -> arg (restrict params kw) name d = arg kw name d.
Proof.
move=> h; rewrite /arg /restrict; elim: kw => [|[k v] kw IH] //=.
case hk: (py_in _ _ _) => /=; first by case: ifP.
case: ifP => // /String.eqb_eq e; move: hk; rewrite e.
by move/py_in_str: h => ->.
Qed.

End Runs.

(** ** Invariants of drawing routines *)

Section Draws.
Variable R : realFieldType.
Variable layout : seq Z -> positions R.
Variable I : pstate R -> Prop.
Variable Q : cmd R -> Prop.
Variable V : point R -> Prop.
Hypothesis I_added : forall s cs, I s -> I (added s cs).
Hypothesis I_pos : forall s n p, I s -> (node_pos n s).2 = Ok p -> V p.

Definition draws A (Post : A -> Prop) (m : draw R A) := forall s, I s ->
  I (m s).1 /\ (exists new, p_cmds (m s).1 = p_cmds s ++ new /\ forall c, In c new -> Q c) /\
  forall a, (m s).2 = Ok a -> Post a.

Let any A : A -> Prop := fun _ => True.

Lemma draws_weaken A (P P' : A -> Prop) m : (forall a, P a -> P' a) -> draws P m -> draws P' m.
Proof. by move=> h d s hs; have [h1 [h2 h3]] := d s hs; do 2!split=> //; move=> a /h3 /h. Qed.

Lemma draws_pure A (P : A -> Prop) (m : draw R A) : (forall s, (m s).1 = s) -> (forall s a, I s -> (m s).2 = Ok a -> P a) -> draws P m.
Proof.
move=> h1 h2 s hs; rewrite h1; split=> //; split; last by move=> a; apply: h2.
by exists [::]; rewrite cats0.
Qed.

Lemma draws_ret A (P : A -> Prop) a : P a -> draws P (dret a).
Proof. by move=> h; apply: draws_pure => // s b _ [<-]. Qed.

Lemma draws_raise A (P : A -> Prop) e : draws P (draise e).
Proof. exact: draws_pure. Qed.

Lemma draws_lift A (P : A -> Prop) r : (forall a, r = Ok a -> P a) -> draws P (dlift r).
Proof. by move=> h; apply: draws_pure => // s a _; apply: h. Qed.

Lemma draws_bind A B (P : A -> Prop) (P' : B -> Prop) m f : draws P m -> (forall a, P a -> draws P' (f a)) -> draws P' (dbind m f).
Proof.
move=> d df s hs; have [h1 [[new [e h2]] h3]] := d s hs; rewrite /dbind.
case em: (m s) => [s1 [a|x]]; rewrite em /= in h1 e h3; last by split=> //; split=> //; exists new.
have [g1 [[new' [e' g2]] g3]] := df a (h3 a erefl) s1 h1.
split=> //; split=> //; exists (new ++ new'); rewrite e' e catA; split=> // c /in_app_iff[]; auto.
Qed.

Lemma draws_emit c : Q c -> draws (any (A := unit)) (emit c).
Proof.
move=> h s hs; rewrite emitE; split; first exact: I_added.
by split=> //; exists [:: c]; split=> // c' [<-|].
Qed.

Lemma draws_emit_cur (c : nat -> cmd R) : (forall s, I s -> Q (c (p_cur s))) -> draws (any (A := unit)) (do! cur := axes None in emit (c cur)).
Proof.
move=> h s hs; rewrite (@dbind_Ok _ _ _ _ _ s s (p_cur s)) // emitE; split; first exact: I_added.
by split=> //; exists [:: c (p_cur s)]; split=> // c' [<-|] //; apply: h.
Qed.

Lemma draws_for A (f : A -> draw R unit) l : (forall a, draws (any (A := unit)) (f a)) -> draws (any (A := unit)) (dfor l f).
Proof. by move=> h; elim: l => [|a l IH]; [apply: draws_ret | apply: (draws_bind (h a))]. Qed.

Lemma draws_map A B (P : B -> Prop) (f : A -> draw R B) l : (forall a, draws P (f a)) -> draws (Forall P) (dmap l f).
Proof.
move=> h; elim: l => [|a l IH]; first by apply: draws_ret; constructor.
by apply: (draws_bind (h a)) => b pb; apply: (draws_bind IH) => bs pbs; apply: draws_ret; constructor.
Qed.

Lemma draws_node n : draws V (node_pos n).
Proof.
apply: draws_pure => [s|s a hs]; last exact: I_pos.
by rewrite /node_pos /dbind /=; case: (p_pos s).
Qed.

Lemma draws_if A (P : A -> Prop) (b : bool) m m' : draws P m -> draws P m' -> draws P (if b then m else m').
Proof. by case: b. Qed.

Variable sc : SC.
Variable ax : nat.
Hypothesis d_init : draws (any (A := unit)) (init_axes layout sc ax).
Hypothesis q_bar : forall lo hi, Q (Colorbar ax lo hi).
Hypothesis q_scatter : forall ps o, Forall V ps -> Q (Scatter ax ps o).
Hypothesis q_margins : forall m, Q (Margins ax m).
Hypothesis q_text : forall s p n o, I s -> V p -> Q (NodeText (p_cur s) p n o).
Hypothesis q_lines : forall es ends c a o, Forall (fun pq => V pq.1 /\ V pq.2) ends -> Q (EdgeLines ax es ends c a o).
Hypothesis q_poly : forall ps, Forall V ps -> Q (Polygon ax ps).
Hypothesis q_etext : forall p l o, Q (EdgeText ax p l o).

Lemma draws_scale cmap vmin vmax l : draws (any (A := _)) (colour_scale ax cmap vmin vmax l).
Proof.
have body : draws (any (A := kval R * kval R)) (do! lo := (match vmin with
                 | KNone => do! m := dlift (list_min l) in dret (KNum (m - `|m| * (5%:R / 10%:R)))
                 | _ => dret vmin
                 end) in
      do! hi := (match vmax with KNone => do! m := dlift (list_max l) in dret (KNum m) | _ => dret vmax end) in
      do! _ := emit (Colorbar ax lo hi) in
      dret (lo, hi)).
  apply: (@draws_bind _ _ (any (A := _))) => [|lo _].
    by case: vmin => *; try exact: draws_ret; apply: (@draws_bind _ _ (any (A := _))) => [|m _]; [apply: draws_lift | apply: draws_ret].
  apply: (@draws_bind _ _ (any (A := _))) => [|hi _].
    by case: vmax => *; try exact: draws_ret; apply: (@draws_bind _ _ (any (A := _))) => [|m _]; [apply: draws_lift | apply: draws_ret].
  by apply: (draws_bind (draws_emit (q_bar _ _))) => _ _; apply: draws_ret.
by case: cmap => *; rewrite /colour_scale; try exact: draws_raise.
Qed.

(** draw_sc_nodes after _init_axes. *)
Definition nodes_rest wl kw : draw R unit :=
  do! lim := (match numbers_of (CRaw (arg kw "node_color" (KStr "#ff7f0e"))) with
              | Some l => colour_scale ax (arg kw "cmap" KCmap) (arg kw "vmin" KNone) (arg kw "vmax" KNone) l
              | None => dret (arg kw "vmin" KNone, arg kw "vmax" KNone)
              end) in
  do! points := dmap (sc_nodes sc) (@node_pos R) in
  do! _ := emit (Scatter ax points
    [:: ("s", arg kw "node_size" (KNum 300%:R)); ("c", arg kw "node_color" (KStr "#ff7f0e"));
        ("edgecolors", arg kw "node_edge_colors" (KStr "black")); ("vmin", lim.1); ("vmax", lim.2);
        ("alpha", arg kw "alpha" (KNum (tenth R 8)))]%string) in
  do! _ := (match arg kw "margins" KNone with KNone => dret tt | _ => emit (Margins ax (arg kw "margins" KNone)) end) in
  if wl then draw_node_labels sc (arg kw "font_size" (KNum 12%:R)) (arg kw "font_color" (KStr "k"))
    (arg kw "font_weight" (KStr "normal")) (arg kw "alpha" (KNum (tenth R 8))) else dret tt.

Lemma draws_nodes_rest wl kw : draws (any (A := unit)) (nodes_rest wl kw).
Proof.
apply: (@draws_bind _ _ (any (A := _))) => [|lim _].
  by case: (numbers_of _) => [l|]; [apply: draws_scale | apply: draws_ret].
apply: (draws_bind (draws_map _ draws_node)) => ps hps.
apply: (draws_bind (draws_emit (q_scatter _ hps))) => _ _.
apply: (@draws_bind _ _ (any (A := _))) => [|_ _].
  by case: (arg kw "margins" KNone) => *; try exact: draws_ret; apply: draws_emit.
apply: draws_if; last exact: draws_ret.
apply: draws_for => n; apply: (draws_bind (draws_node n)) => p hp.
by apply: (draws_emit_cur (c := fun cur => NodeText cur p n _)) => s hs; apply: q_text.
Qed.

Lemma draws_nodes wl oax kw : (forall s, I s -> (if oax is Some a then a else p_cur s) = ax) ->
  draws (any (A := unit)) (draw_sc_nodes layout sc wl oax kw).
Proof.
move=> hax; rewrite /draw_sc_nodes.
apply: (@draws_bind _ _ (fun a => a = ax)) => [|_ ->].
  by apply: draws_pure => // s a hs /= [<-]; case: oax hax => [a'|] h; apply: (h s).
by apply: (draws_bind d_init) => _ _; apply: draws_nodes_rest.
Qed.

Lemma draws_edges f d oax kw : (forall s, I s -> (if oax is Some a then a else p_cur s) = ax) ->
  draws (any (A := unit)) (draw_sc_edges layout sc f d oax kw).
Proof.
move=> hax; rewrite /draw_sc_edges.
apply: (@draws_bind _ _ (any (A := _))) => [|t _]; first exact: draws_lift.
apply: draws_if; first exact: draws_raise.
apply: (@draws_bind _ _ (fun a => a = ax)) => [|_ ->].
  by apply: draws_pure => // s a hs /= [<-]; case: oax hax => [a'|] h; apply: (h s).
apply: (draws_bind d_init) => _ _.
apply: (@draws_bind _ _ (any (A := _))) => [|ec _].
  by case: f => *; try exact: draws_ret; apply: draws_raise.
apply: (@draws_bind _ _ (any (A := _))) => [|clim _].
  case: (numbers_of _) => [l|]; last exact: draws_ret.
  apply: (draws_bind (draws_scale _ _ _ _)) => lim _.
  by apply: (@draws_bind _ _ (any (A := _))) => [|c _]; [apply: draws_lift | apply: draws_ret].
apply: (@draws_bind _ _ (any (A := _))) => [|_ _].
  rewrite /nx_draw_edges; apply: draws_if; first exact: draws_ret.
  apply: (@draws_bind _ _ (Forall (fun pq => V pq.1 /\ V pq.2))) => [|ends he]; last by apply: draws_emit; apply: q_lines.
  apply: draws_map => e; apply: (draws_bind (draws_node _)) => p hp.
  by apply: (draws_bind (draws_node _)) => q hq; apply: draws_ret.
apply: draws_for => tr; case: tr => [|i [|j [|k [|x tr]]]]; try exact: draws_raise.
apply: (draws_bind (draws_node _)) => p hp; apply: (draws_bind (draws_node _)) => q hq.
apply: (draws_bind (draws_node _)) => r hr; apply: draws_emit; apply: q_poly; by repeat constructor.
Qed.

Lemma draws_labels f oax kw : (forall s, I s -> (if oax is Some a then a else p_cur s) = ax) ->
  draws (any (A := unit)) (draw_edge_labels layout sc f oax kw).
Proof.
move=> hax; rewrite /draw_edge_labels; case: f => *; try exact: draws_raise.
apply: (@draws_bind _ _ (fun a => a = ax)) => [|_ ->].
  by apply: draws_pure => // s a hs /= [<-]; case: oax hax => [a'|] h; apply: (h s).
apply: (draws_bind d_init) => _ _.
apply: draws_for => it; apply: (draws_bind (draws_node _)) => p hp; apply: (draws_bind (draws_node _)) => q hq.
by case: (arg kw "offset" _) => *; try exact: draws_raise; apply: draws_emit.
Qed.

Lemma draws_network f d wl oax kw : (forall s, I s -> (if oax is Some a then a else p_cur s) = ax) ->
  draws (any (A := unit)) (draw_network layout sc f d wl oax kw).
Proof.
move=> hax; rewrite /draw_network; apply: draws_if; first exact: draws_raise.
apply: (@draws_bind _ _ (fun a => a = ax)) => [|_ ->].
  by apply: draws_pure => // s a hs /= [<-]; case: oax hax => [a'|] h; apply: (h s).
set f' := (match f with FlNone => _ | _ => _ end).
have call params expl k0 : draws (any (A := unit)) (call_kw params expl k0).
  by rewrite /call_kw; apply: draws_if; [apply: draws_ret | apply: draws_raise].
apply: (@draws_bind _ _ (any (A := _))) => [|num _].
  by case: f' => *; try exact: draws_ret; apply: draws_raise.
apply: (draws_bind (call _ _ _)) => _ _; apply: (@draws_bind _ _ (any (A := _))) => [|_ _]; first exact: draws_nodes.
apply: (draws_bind (call _ _ _)) => _ _; apply: (@draws_bind _ _ (any (A := _))) => [|_ _]; first exact: draws_edges.
apply: draws_if; last exact: draws_ret.
by apply: (draws_bind (call _ _ _)) => _ _; apply: draws_labels.
Qed.

End Draws.

(** ** Complete runs *)

Section Complete.
Variable R : realFieldType.
Variable layout : seq Z -> positions R.
Implicit Types (s : pstate R) (kw : kwargs R) (pos : positions R).

Definition place pos (n : Z) : point R := if dget Z.eqb pos n is Ok p then p else (0, 0).

Lemma placeP pos n : n \in dkeys pos -> dget Z.eqb pos n = Ok (place pos n).
Proof. by move/dgetZ_mem => [v e]; rewrite /place e. Qed.

Lemma lookup_all pos (A : eqType) (f : A -> Z) ns : (forall n, In n ns -> f n \in dkeys pos) ->
  mapM (fun n => dget Z.eqb pos (f n)) ns = Ok [seq place pos (f n) | n <- ns].
Proof.
elim: ns => [|n ns IH] h //=; rewrite placeP /=; last by apply: h; left.
by rewrite IH //= => m hm; apply: h; right.
Qed.

Lemma lookup_missing pos ns n : In n ns -> n \notin dkeys pos -> mapM (dget Z.eqb pos) ns = Raise KeyError.
Proof.
elim: ns => [|m ns IH] //= [->|h] hn; first by rewrite (dgetZ_not hn).
case e: (dget _ pos m) => [v|x] /=; first by rewrite IH.
by have [->] := dgetZ_Raise e.
Qed.

Definition margin_cmds (ax : nat) kw : seq (cmd R) := match arg kw "margins" KNone with KNone => [::] | m => [:: Margins ax m] end.
Definition text_opts kw : kwargs R :=
  [:: ("fontsize", arg kw "font_size" (KNum 12%:R)); ("color", arg kw "font_color" (KStr "k"));
      ("weight", arg kw "font_weight" (KStr "normal")); ("alpha", arg kw "alpha" (KNum (tenth R 8)))]%string.
Definition scatter_opts kw lo hi : kwargs R :=
  [:: ("s", arg kw "node_size" (KNum 300%:R)); ("c", arg kw "node_color" (KStr "#ff7f0e"));
      ("edgecolors", arg kw "node_edge_colors" (KStr "black")); ("vmin", lo); ("vmax", hi);
      ("alpha", arg kw "alpha" (KNum (tenth R 8)))]%string.

Lemma margin_run ax kw s :
  (match arg kw "margins" KNone with KNone => dret tt | _ => emit (Margins ax (arg kw "margins" KNone)) end) s =
  (added s (margin_cmds ax kw), Ok tt).
Proof. by rewrite /margin_cmds; case: (arg kw _ _) => *; rewrite ?emitE ?added_nil. Qed.

Lemma text_run sc kw s pos : p_pos s = Some pos -> (forall n, In n (sc_nodes sc) -> n \in dkeys pos) ->
  draw_node_labels sc (arg kw "font_size" (KNum 12%:R)) (arg kw "font_color" (KStr "k")) (arg kw "font_weight" (KStr "normal"))
    (arg kw "alpha" (KNum (tenth R 8))) s =
  (added s [seq NodeText (p_cur s) (place pos n) n (text_opts kw) | n <- sc_nodes sc], Ok tt).
Proof.
move=> e all; rewrite /draw_node_labels.
rewrite (@dfor_added _ _ _ (fun n => [:: NodeText (p_cur s) (place pos n) n (text_opts kw)])).
  by congr (added _ _, _); elim: (sc_nodes sc) => //= a l ->.
move=> a s' ha h1 h2; rewrite e in h1.
have hr : node_pos a s' = (s', Ok (place pos a)) by rewrite (node_posE a h1) placeP //; apply: all.
by rewrite (dbind_Ok _ hr) (@dbind_Ok _ _ _ _ _ s' s' (p_cur s)) ?emitE // /axes h2.
Qed.

Definition plain_colour kw := numbers_of (CRaw (arg kw "node_color" (KStr "#ff7f0e"))) = None.

Definition node_cmds sc wl ax pos kw cur : seq (cmd R) :=
  Scatter ax [seq place pos n | n <- sc_nodes sc] (scatter_opts kw (arg kw "vmin" KNone) (arg kw "vmax" KNone)) ::
  margin_cmds ax kw ++
  (if wl then [seq NodeText cur (place pos n) n (text_opts kw) | n <- sc_nodes sc] else [::]).

Definition axes_or oax s := if oax is Some a then a else p_cur s.

Lemma nodes_run sc wl oax kw s (pos := the_pos layout sc s) (ax := axes_or oax s) :
  p_pos s <> Some [::] -> plain_colour kw -> (forall n, In n (sc_nodes sc) -> n \in dkeys pos) ->
  draw_sc_nodes layout sc wl oax kw s =
  (added (placed s pos) (the_frame ax s :: node_cmds sc wl ax pos kw (p_cur s)), Ok tt).
Proof.
move=> hp hc all; rewrite /draw_sc_nodes hc.
rewrite (@dbind_Ok _ _ _ _ _ s s ax) // (dbind_Ok _ (init_axes_run layout sc ax hp)).
set s1 := added _ _; have e1 : p_pos s1 = Some pos by [].
rewrite (@dbind_Ok _ _ _ _ _ s1 s1 (arg kw "vmin" KNone, arg kw "vmax" KNone)) //.
rewrite (@dbind_Ok _ _ _ _ _ s1 s1 [seq place pos n | n <- sc_nodes sc]); last first.
  by rewrite (dmap_nodes _ e1) (@lookup_all pos _ id).
rewrite (dbind_Ok _ (emitE _ _)) (dbind_Ok _ (margin_run _ _ _)).
case: wl; last by rewrite /s1 !added_cat /node_cmds cats0.
by rewrite (@text_run _ _ _ pos) // /s1 !added_cat.
Qed.

Lemma nodes_missing sc wl oax kw s (pos := the_pos layout sc s) (ax := axes_or oax s) :
  p_pos s <> Some [::] -> plain_colour kw -> (exists n, In n (sc_nodes sc) /\ n \notin dkeys pos) ->
  draw_sc_nodes layout sc wl oax kw s = (added (placed s pos) [:: the_frame ax s], Raise KeyError).
Proof.
move=> hp hc [n [hn nn]]; rewrite /draw_sc_nodes hc.
rewrite (@dbind_Ok _ _ _ _ _ s s ax) // (dbind_Ok _ (init_axes_run layout sc ax hp)).
set s1 := added _ _; have e1 : p_pos s1 = Some pos by [].
rewrite (@dbind_Ok _ _ _ _ _ s1 s1 (arg kw "vmin" KNone, arg kw "vmax" KNone)) //.
by apply: dbind_Raise; rewrite (dmap_nodes _ e1) (lookup_missing hn nn).
Qed.

(** Edges *)

Definition scale_lo (vmin : kval R) l := if vmin is KNone then KNum (mn l - `|mn l| * (5%:R / 10%:R)) else vmin.
Definition scale_hi (vmax : kval R) l := if vmax is KNone then KNum (mx l) else vmax.

Lemma scale_run ax cmap vmin vmax l s : cmap = KNone \/ cmap = KCmap -> l <> [::] ->
  colour_scale ax cmap vmin vmax l s =
  (added s [:: Colorbar ax (scale_lo vmin l) (scale_hi vmax l)], Ok (scale_lo vmin l, scale_hi vmax l)).
Proof.
move=> hc hl; rewrite /colour_scale.
set body := (do! lo := _ in _).
have -> : (match cmap with KNone | KCmap => body | _ => draise AssertionError end) = body by case: hc => ->.
rewrite {}/body (@dbind_Ok _ _ _ _ _ s s (scale_lo vmin l)); last first.
  by case: vmin; rewrite //= /dbind /dlift /= list_minE //; apply/eqP.
rewrite (@dbind_Ok _ _ _ _ _ s s (scale_hi vmax l)); last first.
  by case: vmax; rewrite //= /dbind /dlift /= list_maxE //; apply/eqP.
by rewrite (dbind_Ok _ (emitE _ _)).
Qed.

Definition line_opts kw lo hi : kwargs R :=
  [:: ("width", arg kw "edge_width" (KNum 1)); ("alpha", arg kw "alpha" (KNum (tenth R 8)));
      ("arrowsize", arg kw "arrowsize" (KNum 10%:R)); ("edge_vmin", lo); ("edge_vmax", hi)]%string.

Definition tri_cmds sc ax pos : seq (cmd R) := [seq Polygon ax [seq place pos n | n <- t] | t <- sc_triangles sc].

Definition placed_triangles sc pos := forall t, In t (sc_triangles sc) -> size t = 3%N /\ forall n, In n t -> n \in dkeys pos.

Lemma triangles_run sc ax s pos : p_pos s = Some pos -> placed_triangles sc pos ->
  draw_triangles sc ax s = (added s (tri_cmds sc ax pos), Ok tt).
Proof.
move=> e all; rewrite /draw_triangles.
rewrite (@dfor_added _ _ _ (fun t => [:: Polygon ax [seq place pos n | n <- t]])).
  by congr (added _ _, _); rewrite /tri_cmds; elim: (sc_triangles sc) => //= a l ->.
move=> t s' ht h1 h2; rewrite e in h1; have [st hn] := all t ht.
have hr n : In n t -> node_pos n s' = (s', Ok (place pos n)) by move=> h; rewrite (node_posE n h1) placeP //; apply: hn.
move: st hr; case: t {ht hn} => [|i [|j [|k [|]]]] // _ hr.
rewrite (dbind_Ok _ (hr i _)) /=; last by left.
rewrite (dbind_Ok _ (hr j _)) /=; last by right; left.
by rewrite (dbind_Ok _ (hr k _)) ?emitE //=; right; right; left.
Qed.

Lemma lines_run ax es c a o s pos : p_pos s = Some pos -> es <> [::] ->
  (forall e, In e es -> e.1 \in dkeys pos /\ e.2 \in dkeys pos) ->
  nx_draw_edges ax es c a o s = (added s [:: EdgeLines ax es [seq (place pos e.1, place pos e.2) | e <- es] c a o], Ok tt).
Proof.
move=> e ne all; rewrite /nx_draw_edges ifF; last by case: (es) ne.
rewrite (@dbind_Ok _ _ _ _ _ s s [seq (place pos e.1, place pos e.2) | e <- es]) ?emitE //.
rewrite (@dmap_pure _ _ _ _ (fun e => Ok (place pos e.1, place pos e.2))).
  by rewrite mapM_pure; congr (_, Ok _); elim: (es) => //= x l ->.
move=> x hx; have [h1 h2] := all x hx.
by rewrite /dbind (node_posE _ e) (placeP h1) (node_posE _ e) (placeP h2).
Qed.

End Complete.

(** ** Colours and labels of edges *)

Section Coloured.
Variable R : realFieldType.
Variable layout : seq Z -> positions R.
Implicit Types (s : pstate R) (kw : kwargs R) (pos : positions R).

(** The values [vs] for the edges [es]: each is the value at the first position of its edge. *)
Definition first_values (edges : seq (Z * Z)) (l : seq R) (es : seq (Z * Z)) (vs : seq (kval R)) : Prop :=
  Forall2 (fun e v => exists k x, [/\ nth_error edges k = Some e, (forall k', (k' < k)%coq_nat -> nth_error edges k' <> Some e),
    nth_error l k = Some x & v = KNum x]) es vs.

Lemma colours_first edges l es vs : mapM (colour_of edges l) es = Ok vs -> first_values edges l es vs.
Proof.
move=> /mapM_Ok h; rewrite /first_values; elim: h => [|e v es' vs' h _ IH]; constructor=> //.
move: h; rewrite /colour_of; case ei: (py_index _ _ _) => [k|] //=; rewrite py_nth_nat.
case en: (nth_error l k) => [x|] //= [<-]; move/(py_index_Ok _ pair_eqb_spec): ei => [h1 h2].
by exists k, x.
Qed.

(** Flow dictionaries from pairs. *)
Definition flow_at (pairs : seq ((Z * Z) * R)) (e : Z * Z) : R := head 0 [seq x.2 | x <- pairs & x.1 == e].
Definition as_dict (pairs : seq ((Z * Z) * R)) : dict (Z * Z) (kval R) := [seq (x.1, KNum x.2) | x <- pairs].

Lemma as_dict_keys pairs : dkeys (as_dict pairs) = [seq x.1 | x <- pairs].
Proof. by elim: pairs => //= a l ->. Qed.

Lemma as_dict_values pairs : dvalues (as_dict pairs) = [seq KNum x.2 | x <- pairs].
Proof. by elim: pairs => //= a l ->. Qed.

Lemma as_dict_numbers pairs : numbers_of (CList (dvalues (as_dict pairs))) = Some [seq x.2 | x <- pairs].
Proof.
rewrite as_dict_values /= ifT; last by elim: pairs.
by congr Some; elim: pairs => //= a l ->.
Qed.

Lemma colour_at pairs e : e \in [seq x.1 | x <- pairs] ->
  colour_of [seq x.1 | x <- pairs] [seq x.2 | x <- pairs] e = Ok (KNum (flow_at pairs e)).
Proof.
rewrite /colour_of /flow_at; move=> h.
suff [k [-> h2]] : exists k, py_index pair_eqb [seq x.1 | x <- pairs] e = Ok k /\
    nth_error [seq x.2 | x <- pairs] k = Some (head 0 [seq x.2 | x <- pairs & x.1 == e]) by rewrite /= py_nth_nat h2.
elim: pairs h => [|[a x] l IH] //=; rewrite in_cons pair_eqbE eq_sym; case: eqP => [_|_] /=; first by exists 0%N.
by move/IH => [k [e1 e2]]; exists k.+1; rewrite e1.
Qed.

Definition edge_cmds sc ax pos kw directed (pairs : seq ((Z * Z) * R)) : seq (cmd R) :=
  let es := digraph_edges [seq x.1 | x <- pairs] in
  let lo := scale_lo (arg kw "edge_vmin" KNone) [seq x.2 | x <- pairs] in
  let hi := scale_hi (arg kw "edge_vmax" KNone) [seq x.2 | x <- pairs] in
  Colorbar ax lo hi ::
  EdgeLines ax es [seq (place pos e.1, place pos e.2) | e <- es] (CList [seq KNum (flow_at pairs e) | e <- es]) directed
    (line_opts kw lo hi) ::
  tri_cmds sc ax pos.

Lemma edges_run sc directed ax kw s pos pairs : p_pos s = Some pos -> pairs <> [::] ->
  (forall x, In x pairs -> x.1.1 \in dkeys pos /\ x.1.2 \in dkeys pos) -> placed_triangles sc pos ->
  arg kw "edge_cmap" KCmap = KNone \/ arg kw "edge_cmap" KCmap = KCmap ->
  draw_sc_edges layout sc (FlDict (as_dict pairs)) directed (Some ax) kw s =
  (added s (frame ax pos :: edge_cmds sc ax pos kw directed pairs), Ok tt).
Proof.
move=> ep ne hend htri hcm; rewrite /draw_sc_edges.
have nk : [seq x.1 | x <- pairs] <> [::] by case: (pairs) ne.
have nv : [seq x.2 | x <- pairs] <> [::] by case: (pairs) ne.
rewrite (@dbind_Ok _ _ _ _ _ s s true); last by case: (pairs) ne.
rewrite (_ : true && ~~ is_dict (FlDict (as_dict pairs)) = false) // (@dbind_Ok _ _ _ _ _ s s ax) //.
have hne : pos <> [::].
  by case: (pairs) ne hend => // x l _ /(_ x (or_introl erefl)) [h _] z; move: h; rewrite z.
rewrite (dbind_Ok _ (init_axes_some _ _ _ ep hne)); set s1 := added s _; have e1 : p_pos s1 = Some pos by [].
rewrite (@dbind_Ok _ _ _ _ _ s1 s1 (dkeys (as_dict pairs), CList (dvalues (as_dict pairs)))) //.
cbn [fst snd].
rewrite as_dict_numbers as_dict_keys; set es := digraph_edges _; set l := [seq x.2 | x <- pairs].
set lo := scale_lo (arg kw "edge_vmin" KNone) l; set hi := scale_hi (arg kw "edge_vmax" KNone) l.
have hes e : In e es -> e \in [seq x.1 | x <- pairs] by move/in_mem; rewrite digraph_mem.
rewrite (@dbind_Ok _ _ _ _ _ s1 (added s1 [:: Colorbar ax lo hi]) (CList [seq KNum (flow_at pairs e) | e <- es], (lo, hi))); last first.
  rewrite (dbind_Ok _ (scale_run _ _ _ _ hcm nv)) (@dbind_Ok _ _ _ _ _ _ (added s1 [:: Colorbar ax lo hi]) [seq KNum (flow_at pairs e) | e <- es]) //.
  rewrite /dlift (@mapM_total _ _ _ (fun e => KNum (flow_at pairs e))) //.
  by move=> e /hes he; apply: colour_at.
rewrite (@dbind_Ok _ _ _ _ _ _ _ _ (@lines_run _ ax es _ _ _ _ pos _ _ _)) //.
- by rewrite (@triangles_run _ _ _ _ pos) // /s1 !added_cat.
- by move=> z; move: (digraph_nil [seq x.1 | x <- pairs]); rewrite -/es z; case: [seq x.1 | x <- pairs] nk.
- by move=> e /hes /mapP [x /in_mem hx ->]; apply: hend.
Qed.

Definition elabel_opts kw : kwargs R :=
  [:: ("size", arg kw "font_size" (KNum 10%:R)); ("color", arg kw "font_color" (KStr "k"));
      ("weight", arg kw "font_weight" (KStr "normal")); ("alpha", arg kw "alpha" KNone)]%string.

Definition label_cmds ax pos kw off (pairs : seq ((Z * Z) * R)) : seq (cmd R) :=
  [seq EdgeText ax (label_position (place pos x.1.1) (place pos x.1.2) off) (KNum x.2) (elabel_opts kw) | x <- pairs].

Lemma labels_run sc ax kw s pos off pairs : p_pos s = Some pos -> pairs <> [::] ->
  (forall x, In x pairs -> x.1.1 \in dkeys pos /\ x.1.2 \in dkeys pos) ->
  arg kw "offset" (KNum (15%:R / 100%:R)) = KNum off ->
  draw_edge_labels layout sc (FlDict (as_dict pairs)) (Some ax) kw s =
  (added s (frame ax pos :: label_cmds ax pos kw off pairs), Ok tt).
Proof.
move=> ep ne hend hoff; rewrite /draw_edge_labels (@dbind_Ok _ _ _ _ _ s s ax) //.
have hne : pos <> [::].
  by case: (pairs) ne hend => // x l _ /(_ x (or_introl erefl)) [h _] z; move: h; rewrite z.
rewrite (dbind_Ok _ (init_axes_some _ _ _ ep hne)); set s1 := added s _; have e1 : p_pos s1 = Some pos by [].
rewrite hoff (@dfor_added _ _ _ (fun it => [:: EdgeText ax (label_position (place pos it.1.1) (place pos it.1.2) off) it.2 (elabel_opts kw)])).
  by rewrite /s1 added_cat /label_cmds /=; congr (added _ (_ :: _), _); elim: (pairs) => //= a l ->.
move=> it s' hit h1 _; rewrite e1 in h1.
have [ha hb] : it.1.1 \in dkeys pos /\ it.1.2 \in dkeys pos.
  by move: hit; rewrite /as_dict => /in_map_iff [x [<- /hend]].
by rewrite /dbind (node_posE _ h1) (placeP ha) (node_posE _ h1) (placeP hb) emitE.
Qed.

End Coloured.
