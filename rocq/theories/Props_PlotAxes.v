(** * C72, C80, C81: layouts, axes and limits of the plots *)

From Coq Require Import ZArith String List.
From mathcomp Require Import all_ssreflect all_algebra ssrZ.
From Verif Require Import Py Complex Signal Eigen Plot PyFacts PlotFacts ExampleData Compute.

Set Implicit Arguments.
Unset Strict Implicit.
Unset Printing Implicit Defensive.

Import GRing.Theory Num.Theory Order.Theory.
Local Open Scope ring_scope.
Local Open Scope draw_scope.
Delimit Scope Z_scope with zz.

(** The contract of networkx's spring layout: a position in the square [-1, 1] x [-1, 1] for each node of the graph. *)
Definition layout_contract (R : realFieldType) (layout : seq Z -> positions R) :=
  forall ns, uniq ns -> dkeys (layout ns) = ns /\
    forall n p, dget Z.eqb (layout ns) n = Ok p -> [/\ -1 <= p.1, p.1 <= 1, -1 <= p.2 & p.2 <= 1].

(** A layout meeting it: everything at the origin. *)
Definition flat_layout (R : realFieldType) (ns : seq Z) : positions R := [seq (n, (0, 0)) | n <- ns].

Lemma flat_layout_ok (R : realFieldType) : layout_contract (@flat_layout R).
Proof.
move=> ns _; split; first by elim: ns => //= n ns ->.
move=> n p; elim: ns => [|m ns IH] //=; case: ifP => // _ [<-] /=.
by rewrite lerN10 ler01.
Qed.

Definition on_an_edge (sc : SC) (n : Z) : Prop := exists e, In e (sc_edges sc) /\ (fst e = n \/ snd e = n).

Section C72.
Variable R : realFieldType.
Variable layout : seq Z -> positions R.
Hypothesis layout_ok : layout_contract layout.
Implicit Types (s : pstate R) (kw : kwargs R).

Lemma on_edge_mem sc n : on_an_edge sc n <-> n \in graph_keys [::] (sc_edges sc).
Proof.
rewrite graph_keys_mem in_nil /=; split.
  by case=> e [/in_mem he h]; apply/hasP; exists e => //; case: h => <-; rewrite eqxx ?orbT.
by case/hasP => e he /orP[] /eqP h; exists e; split; [exact/in_mem | left | exact/in_mem | right].
Qed.

Lemma layout_keys ns : uniq ns -> dkeys (layout ns) = ns.
Proof. by case/layout_ok. Qed.

Lemma no_colour kw : ~ In "node_color"%string (dkeys kw) -> plain_colour kw.
Proof.
move=> hc; rewrite /plain_colour /arg (_ : dget _ kw "node_color"%string = Raise KeyError) //.
elim: kw hc => [|[k v] kw IH] //= hc; case: ifP => [/String.eqb_eq e|_]; last by apply: IH => h; apply: hc; right.
by case: hc; left.
Qed.

(** Without coordinates: KeyError as soon as a node has no edge, otherwise the nodes are drawn. *)
Theorem C72_without_coordinates sc with_labels ax kw s : p_pos s = None -> ~ In "node_color"%string (dkeys kw) ->
  let r := (draw_sc_nodes layout sc with_labels ax kw s).2 in
  ((exists n, In n (sc_nodes sc) /\ ~ on_an_edge sc n) -> r = Raise KeyError) /\
  ((forall n, In n (sc_nodes sc) -> on_an_edge sc n) -> r = Ok tt).
Proof.
move=> ep /no_colour hc /=.
have np : p_pos s <> Some [::] by rewrite ep.
have ek : dkeys (the_pos layout sc s) = graph_keys [::] (sc_edges sc) by rewrite /the_pos ep layout_keys // graph_keys_uniq.
split=> [[n [hn h]]|h].
  rewrite nodes_missing //; exists n; split=> //; rewrite ek; apply/negP => h'; apply: h; exact/on_edge_mem.
by rewrite nodes_run // => n /h /on_edge_mem; rewrite ek.
Qed.

(** The positions of generate_coordinates: one for every node; with them the nodes are drawn, unless there is none
    at all: then ValueError. *)
Theorem C72_generated sc n : In n (sc_nodes sc) -> exists p, dget Z.eqb (generate_coordinates layout sc) n = Ok p.
Proof.
move=> /in_mem hn; apply/dgetZ_mem; rewrite /generate_coordinates layout_keys ?graph_keys_uniq //.
by rewrite graph_keys_mem hn.
Qed.

Theorem C72_with_coordinates sc with_labels ax kw s : p_pos s = Some (generate_coordinates layout sc) ->
  ~ In "node_color"%string (dkeys kw) ->
  (draw_sc_nodes layout sc with_labels ax kw s).2 =
  if sc_nodes sc is [::] then if sc_edges sc is [::] then Raise ValueError else Ok tt else Ok tt.
Proof.
move=> ep /no_colour hc.
have ek : dkeys (generate_coordinates layout sc) = graph_keys (sc_nodes sc) (sc_edges sc).
  by rewrite /generate_coordinates layout_keys // graph_keys_uniq.
case: (generate_coordinates layout sc =P [::]) => [e|ne].
  have h0 x : x \notin graph_keys (sc_nodes sc) (sc_edges sc) by rewrite -ek e.
  have -> : sc_nodes sc = [::].
    by case e1: (sc_nodes sc) => [|n l] //; have := h0 n; rewrite graph_keys_mem e1 mem_head.
  have -> : sc_edges sc = [::].
    by case e1: (sc_edges sc) => [|n l] //; have := h0 n.1; rewrite graph_keys_mem e1 /= eqxx orbT.
  rewrite /draw_sc_nodes (@dbind_Ok _ _ _ _ _ s s (axes_or ax s)) //.
  by rewrite (dbind_Raise _ (init_axes_empty _ _ _ _)) // ep e.
have all n : In n (sc_nodes sc) -> n \in dkeys (the_pos layout sc s).
  by move/in_mem => hn; rewrite /the_pos ep ek graph_keys_mem hn.
rewrite nodes_run //; last by rewrite ep => -[].
case e1: (sc_nodes sc) => [|n l] //; case e2: (sc_edges sc) => [|n l] //.
by move: ek; rewrite e1 e2; case: (generate_coordinates layout sc) ne.
Qed.

End C72.
Print Assumptions C72_without_coordinates.
Print Assumptions C72_generated.
Print Assumptions C72_with_coordinates.

(** ** C80: which axes are drawn in *)

Definition axes_of (R : realFieldType) (c : cmd R) : nat :=
  match c with
  | Limits a _ _ _ _ | Colorbar a _ _ | Scatter a _ _ | Margins a _ | NodeText a _ _ _ | EdgeLines a _ _ _ _ _
  | Polygon a _ | EdgeText a _ _ _ | Subplot a _ _ _ | Title a _ _ => a
  end.

Section C80.
Variable R : realFieldType.
Variable layout : seq Z -> positions R.
Variable lstsq : forall m n, 'M[R]_(m, n) -> 'cV[R]_m -> 'cV[R]_n.
Variable rint : R -> int.
Variable eigsh : forall n, 'M[R]_n -> seq (R * 'cV[R]_n).
Implicit Types (s : pstate R) (kw : kwargs R).

Definition right_axes (a cur : nat) (c : cmd R) : Prop :=
  match c with NodeText b _ _ _ => b = cur | _ => axes_of c = a end.

Definition keeps cur next (s : pstate R) := p_cur s = cur /\ p_next s = next.

Lemma axes_init a cur next sc : draws (keeps cur next) (right_axes a cur) (fun _ => True) (init_axes layout sc a).
Proof.
move=> s [h1 h2]; case e: (p_pos s) => [[|p pos]|].
- by rewrite init_axes_empty //; split=> //; split=> //; exists [::]; rewrite cats0.
- by rewrite (init_axes_some _ _ _ e) //; split=> //; split=> //; eexists; split; first reflexivity; move=> c [<-|].
- by rewrite (init_axes_none _ _ _ e); split=> //; split=> //; eexists; split; first reflexivity; move=> c [<-|].
Qed.

Lemma axes_network a cur next sc f d wl oax kw : (if oax is Some b then b else cur) = a ->
  draws (keeps cur next) (right_axes a cur) (fun _ => True) (draw_network layout sc f d wl oax kw).
Proof.
move=> h; apply: (@draws_network R layout (keeps cur next) (right_axes a cur) (fun _ => True)) => //.
- exact: axes_init.
- by move=> s p n o [].
- by move=> s [e _]; rewrite -h; case: oax {h} => //; rewrite e.
Qed.

(** The node labels are drawn in the current axes whatever axes are given; everything else in the given axes. *)
Theorem C80_axes sc f directed with_labels ax kw s :
  let r := draw_network layout sc f directed with_labels (Some ax) kw s in
  p_cur r.1 = p_cur s /\
  exists new, p_cmds r.1 = p_cmds s ++ new /\
    forall c, In c new -> match c with NodeText a _ _ _ => a = p_cur s | _ => axes_of c = ax end.
Proof.
move=> r.
have [|[h1 _] [[new [h2 h3]] _]] := @axes_network ax (p_cur s) (p_next s) sc f directed with_labels (Some ax) kw erefl s; first by split.
by split=> //; exists new.
Qed.

(** Without axes everything is drawn in the current axes. *)
Theorem C80_current_axes sc f directed with_labels kw s :
  exists new, p_cmds (draw_network layout sc f directed with_labels None kw s).1 = p_cmds s ++ new /\
    forall c, In c new -> axes_of c = p_cur s.
Proof.
have [|_ [[new [h2 h3]] _]] := @axes_network (p_cur s) (p_cur s) (p_next s) sc f directed with_labels None kw erefl s; first by split.
by exists new; split=> // c /h3; case: c.
Qed.

(** A panel of the Hodge decomposition and eigenvector figures: fresh axes, used for everything in the panel. *)
Lemma panel_axes sc rows cols number letter v f wl kw s :
  let r := (do! ax := add_subplot rows cols number in do! _ := emit (Title ax letter v) in
            draw_network layout sc f true wl (Some ax) kw) s in
  p_next r.1 = (p_next s).+1 /\
  exists new, p_cmds r.1 = p_cmds s ++ new /\ forall c, In c new -> axes_of c = p_next s.
Proof.
rewrite /= (@dbind_Ok _ _ _ _ _ s (mkP (p_pos s) (p_next s) (p_next s).+1 (rcons (p_cmds s) (Subplot R (p_next s) rows cols number))) (p_next s)) //.
rewrite (dbind_Ok _ (emitE _ _)); set s1 := added _ _.
have [|[_ h1] [[new [h2 h3]] _]] := @axes_network (p_next s) (p_next s) (p_next s).+1 sc f true wl (Some (p_next s)) kw erefl s1; first by split.
split=> //; exists ([:: Subplot R (p_next s) rows cols number; Title (p_next s) letter v] ++ new).
rewrite h2 /s1 /= -cats1 -!catA; split=> // c /= [<-|[<-|/h3]] //.
by case: c.
Qed.

End C80.

Section C80b.
Variable R : realFieldType.
Variable layout : seq Z -> positions R.
Variable lstsq : forall m n, 'M[R]_(m, n) -> 'cV[R]_m -> 'cV[R]_n.
Variable rint : R -> int.
Variable eigsh : forall n, 'M[R]_n -> seq (R * 'cV[R]_n).
Implicit Types (s : pstate R) (kw : kwargs R).

(** The commands of a run fall into panels, one after the other, each in axes of its own. *)
Definition in_panels A (m : draw R A) := forall s, exists panels : seq (seq (cmd R)),
  [/\ p_cmds (m s).1 = p_cmds s ++ flatten panels, p_next (m s).1 = (p_next s + size panels)%N &
      forall i c, In c (nth [::] panels i) -> axes_of c = (p_next s + i)%N].

Lemma panels_lift A (r : res A) : in_panels (dlift r).
Proof. by move=> s; exists [::]; rewrite cats0 addn0; split=> // i c; rewrite nth_nil. Qed.

Lemma panels_bind A B (m : draw R A) (f : A -> draw R B) : in_panels m -> (forall a, in_panels (f a)) -> in_panels (dbind m f).
Proof.
move=> hm hf s; have [ps [h1 h2 h3]] := hm s; rewrite /dbind.
case em: (m s) => [s1 [a|x]]; rewrite em /= in h1 h2; last by exists ps.
have [qs [g1 g2 g3]] := hf a s1; exists (ps ++ qs); split.
- by rewrite g1 h1 flatten_cat catA.
- by rewrite g2 h2 size_cat addnA.
- move=> i c; rewrite nth_cat; case: ltnP => hi; first exact: h3.
  by move/g3 => ->; rewrite h2 -addnA subnKC.
Qed.

Lemma panels_for A (f : A -> draw R unit) l : (forall a, in_panels (f a)) -> in_panels (dfor l f).
Proof. by move=> h; elim: l => [|a l IH] /=; [exact: (panels_lift (Ok tt)) | apply: panels_bind]. Qed.

Lemma panels_one A (m : draw R A) : (forall s, p_next (m s).1 = (p_next s).+1 /\
    exists new, p_cmds (m s).1 = p_cmds s ++ new /\ forall c, In c new -> axes_of c = p_next s) -> in_panels m.
Proof.
move=> h s; have [h1 [new [h2 h3]]] := h s; exists [:: new]; split.
- by rewrite /= cats0.
- by rewrite h1 addn1.
- by case=> [|i] c; [rewrite addn0; apply: h3 | rewrite /= nth_nil].
Qed.

Lemma panels_flow sc cols number letter f : in_panels (flow_panel layout sc cols number letter f).
Proof. by apply: panels_one => s; apply: panel_axes. Qed.

(** In these two figures node labels do go to the panel they belong to. *)
Theorem C80_hodge_panels sc flow component round_fig d s :
  exists panels : seq (seq (cmd R)),
  let r := draw_hodge_decomposition layout lstsq rint sc flow component round_fig d s in
  [/\ p_cmds r.1 = p_cmds s ++ flatten panels, p_next r.1 = (p_next s + size panels)%N &
      forall i c, In c (nth [::] panels i) -> axes_of c = (p_next s + i)%N].
Proof.
suff: in_panels (draw_hodge_decomposition layout lstsq rint sc flow component round_fig d) by apply.
rewrite /draw_hodge_decomposition; case: component => [c|].
  by apply: panels_bind => [|f]; [apply: panels_lift | apply: panels_flow].
by do 3!(apply: panels_bind => [|?]; first exact: panels_lift); do 2!(apply: panels_bind => [|?]; first exact: panels_flow); apply: panels_flow.
Qed.

Theorem C80_eigenvector_panels sc component idx round_fig d with_labels s :
  exists panels : seq (seq (cmd R)),
  let r := draw_eigenvectors layout rint eigsh sc component idx round_fig d with_labels s in
  [/\ p_cmds r.1 = p_cmds s ++ flatten panels, p_next r.1 = (p_next s + size panels)%N &
      forall i c, In c (nth [::] panels i) -> axes_of c = (p_next s + i)%N].
Proof.
suff: in_panels (draw_eigenvectors layout rint eigsh sc component idx round_fig d with_labels) by apply.
rewrite /draw_eigenvectors; apply: panels_bind => [|ps]; first exact: panels_lift.
case: ifP => _; first exact: (panels_lift (Raise ZeroDivisionError)).
apply: panels_for => it; case e: (py_nth ps it.2) => [p|x].
  by apply: panels_one => s0; apply: panel_axes.
apply: panels_one => s0 /=; split=> //.
by eexists; split; [rewrite -cats1; reflexivity | move=> c [<-|]].
Qed.

End C80b.
Print Assumptions C80_axes.
Print Assumptions C80_current_axes.
Print Assumptions C80_hodge_panels.
Print Assumptions C80_eigenvector_panels.

(** ** C81: limits and layout *)

Section C81.
Variable R : realFieldType.
Variable layout : seq Z -> positions R.
Implicit Types (s : pstate R) (kw : kwargs R) (pos : positions R).

(** [lo, hi]: the range of the values, widened by a twentieth on each side. *)
Definition widened (l : list R) (lo hi : R) : Prop := exists a b,
  [/\ In a l /\ In b l, (forall x, In x l -> a <= x /\ x <= b), lo = a - (b - a) / 20%:R & hi = b + (b - a) / 20%:R].

(** The points a command refers to (edge labels are placed beside their edges). *)
Definition points_of (c : cmd R) : list (point R) :=
  match c with
  | Scatter _ ps _ | Polygon _ ps => ps
  | NodeText _ p _ _ => [:: p]
  | EdgeLines _ _ ends _ _ _ => [seq e.1 | e <- ends] ++ [seq e.2 | e <- ends]
  | _ => [::]
  end.

Definition well_placed pos (c : cmd R) : Prop :=
  (forall p, In p (points_of c) -> In p (dvalues pos)) /\
  match c with
  | Limits _ xlo xhi ylo yhi => widened (List.map fst (dvalues pos)) xlo xhi /\ widened (List.map snd (dvalues pos)) ylo yhi
  | _ => True
  end.

Lemma mapE (A B : Type) (f : A -> B) l : List.map f l = [seq f x | x <- l].
Proof. by []. Qed.

Lemma twentieth : (5%:R / 100%:R : R) = 20%:R^-1.
Proof.
have -> : (100%:R : R) = 5%:R * 20%:R by rewrite -natrM.
by rewrite invfM mulrA divff ?mul1r // pnatr_eq0.
Qed.

Lemma widened_frame (l : seq R) : l <> [::] -> widened l (mn l - pad l) (mx l + pad l).
Proof.
move=> /eqP h; have [h1 h2] := mn_spec h; have [h3 h4] := mx_spec h.
exists (mn l), (mx l); rewrite /pad twentieth; split=> //; first by split; apply/in_mem.
by move=> x /in_mem hx; split; [apply: h2 | apply: h4].
Qed.

Lemma values_xs pos : List.map fst (dvalues pos) = xs pos.
Proof. by elim: pos => //= a l ->. Qed.
Lemma values_ys pos : List.map snd (dvalues pos) = ys pos.
Proof. by elim: pos => //= a l ->. Qed.

Lemma frame_ok ax pos : pos <> [::] -> well_placed pos (frame ax pos).
Proof.
move=> h; split=> //=; rewrite values_xs values_ys; split; apply: widened_frame; by case: pos h.
Qed.

Lemma forall_in (A : Type) (P : A -> Prop) l : Forall P l -> forall x, In x l -> P x.
Proof. by move=> h; apply/Forall_forall. Qed.

Section Known.
Variable pos : positions R.
Hypothesis ne : pos <> [::].
Let I s := p_pos s = Some pos.
Let V (p : point R) := In p (dvalues pos).

Lemma known_pos s n p : I s -> (node_pos n s).2 = Ok p -> V p.
Proof. by move=> h; rewrite (node_posE n h) => e; apply: dgetZ_In e. Qed.

Lemma known_scatter ax ps o : Forall V ps -> well_placed pos (Scatter ax ps o).
Proof. by move=> h; split=> //= p; apply: (forall_in h). Qed.
Lemma known_text ax p n o : V p -> well_placed pos (NodeText ax p n o).
Proof. by move=> h; split=> //= q [<-|]. Qed.
Lemma known_lines ax es ends c a o : Forall (fun pq => V pq.1 /\ V pq.2) ends -> well_placed pos (EdgeLines ax es ends c a o).
Proof.
move=> h; split=> //= p /in_app_iff[]; elim: h => //= x l [h1 h2] _ IH [<-|] //.
Qed.
Lemma known_poly ax ps : Forall V ps -> well_placed pos (Polygon ax ps).
Proof. by move=> h; split=> //= p; apply: (forall_in h). Qed.

Lemma known_init sc ax : draws I (well_placed pos) (fun _ => True) (init_axes layout sc ax).
Proof.
move=> s h; rewrite (init_axes_some _ _ _ h) //; split=> //; split=> //.
by eexists; split; [reflexivity | move=> c [<-|] //; apply: frame_ok].
Qed.

Lemma known_network sc f d wl ax kw : draws I (well_placed pos) (fun _ => True) (draw_network layout sc f d wl (Some ax) kw).
Proof.
apply: (@draws_network R layout I (well_placed pos) V) => //.
- exact: known_pos.
- exact: known_init.
- by move=> *; apply: known_scatter.
- by move=> *; apply: known_text.
- by move=> *; apply: known_lines.
- by move=> *; apply: known_poly.
Qed.

Lemma known_nodes_rest sc ax wl kw : draws I (well_placed pos) (fun _ => True) (nodes_rest sc ax wl kw).
Proof.
apply: (@draws_nodes_rest R I (well_placed pos) V) => //.
- exact: known_pos.
- by move=> *; apply: known_scatter.
- by move=> *; apply: known_text.
Qed.

Lemma known_edges sc ax f d kw : draws I (well_placed pos) (fun _ => True) (draw_sc_edges layout sc f d (Some ax) kw).
Proof.
apply: (@draws_edges R layout I (well_placed pos) V) => //.
- exact: known_pos.
- exact: known_init.
- by move=> *; apply: known_lines.
- by move=> *; apply: known_poly.
Qed.

End Known.

(** Coordinates given: they are kept, everything is placed at them, and the limits are their bounding box widened. *)
Theorem C81_coordinates sc f directed with_labels ax kw s pos : p_pos s = Some pos -> pos <> [::] ->
  let r := draw_network layout sc f directed with_labels (Some ax) kw s in
  p_pos r.1 = Some pos /\
  exists new, p_cmds r.1 = p_cmds s ++ new /\ forall c, In c new -> well_placed pos c.
Proof.
by move=> h ne r; have [h1 [h2 _]] := @known_network pos ne sc f directed with_labels ax kw s h.
Qed.

(** Hence every point drawn lies within the limits. *)
Theorem C81_inside sc f directed with_labels ax kw s pos : p_pos s = Some pos -> pos <> [::] ->
  exists new, p_cmds (draw_network layout sc f directed with_labels (Some ax) kw s).1 = p_cmds s ++ new /\
    forall b xlo xhi ylo yhi c p, In (Limits b xlo xhi ylo yhi) new -> In c new -> In p (points_of c) ->
    [/\ xlo <= p.1, p.1 <= xhi, ylo <= p.2 & p.2 <= yhi].
Proof.
move=> h ne; have [_ [new [e hn]]] := C81_coordinates sc f directed with_labels ax kw h ne.
exists new; split=> // b xlo xhi ylo yhi c p hb hc hp.
have [_ [wx wy]] := hn _ hb; have [hv _] := hn _ hc; have {}hv := hv _ hp.
have go l lo hi x : widened l lo hi -> In x l -> lo <= x /\ x <= hi.
  case=> a [d [[ia id] lx -> ->]] ix; have [l1 l2] := lx x ix; have [l3 _] := lx d id.
  have g : 0 <= (d - a) / 20%:R by rewrite divr_ge0 ?ler0n // subr_ge0.
  by split; [rewrite ler_subl_addr; apply: le_trans l1 _; rewrite ler_addl | apply: le_trans l2 _; rewrite ler_addl].
by have [-> ->] := go _ _ _ _ wx (in_map fst _ _ hv); have [-> ->] := go _ _ _ _ wy (in_map snd _ _ hv).
Qed.

(** No coordinates given: the first drawing fixes the spring layout for all later ones. *)
Theorem C81_layout_kept sc with_labels ax kw s : p_pos s = None ->
  p_pos (draw_sc_nodes layout sc with_labels (Some ax) kw s).1 = Some (layout (graph_keys [::] (sc_edges sc))).
Proof.
move=> h; rewrite /draw_sc_nodes (@dbind_Ok _ _ _ _ _ s s ax) // (dbind_Ok _ (init_axes_none _ _ _ h)).
set s1 := added _ _.
by have [|h1 _] := @known_nodes_rest (layout (graph_keys [::] (sc_edges sc))) sc ax with_labels kw s1.
Qed.

(** The limits are really set, by the first command, on the axes given. *)
Theorem C81_limits sc with_labels ax kw s : p_pos s <> Some [::] ->
  exists xlo xhi ylo yhi new,
  p_cmds (draw_sc_nodes layout sc with_labels (Some ax) kw s).1 = p_cmds s ++ Limits ax xlo xhi ylo yhi :: new /\
  match p_pos s with
  | Some pos => widened (List.map fst (dvalues pos)) xlo xhi /\ widened (List.map snd (dvalues pos)) ylo yhi
  | None => [/\ xlo = - (11%:R / 10%:R), xhi = 11%:R / 10%:R, ylo = - (11%:R / 10%:R) & yhi = 11%:R / 10%:R]
  end.
Proof.
case e: (p_pos s) => [pos|] h; rewrite /draw_sc_nodes (@dbind_Ok _ _ _ _ _ s s ax) //.
  have ne : pos <> [::] by move=> e'; apply: h; rewrite e'.
  rewrite (dbind_Ok _ (init_axes_some _ _ _ e ne)); set s1 := added _ _.
  have [|_ [[new [en _]] _]] := @known_nodes_rest pos sc ax with_labels kw s1; first by [].
  have [_ w] := frame_ok ax ne.
  by do 5 eexists; split; [rewrite [LHS]en /s1 /added /= -catA; reflexivity | exact: w].
rewrite (dbind_Ok _ (init_axes_none _ _ _ e)); set s1 := added _ _.
have [|_ [[new [en _]] _]] := @known_nodes_rest (layout (graph_keys [::] (sc_edges sc))) sc ax with_labels kw s1; first by [].
by do 5 eexists; split; [rewrite [LHS]en /s1 /added /= -catA; reflexivity | split].
Qed.

End C81.
Print Assumptions C81_coordinates.
Print Assumptions C81_limits.
Print Assumptions C81_inside.
Print Assumptions C81_layout_kept.

(** ** Examples: the filled triangle with coordinates, and with an extra isolated node *)

Local Notation Q := rat_realFieldType.

Definition tri_pos : positions Q := [:: (Z0, (0, 0)); (1%zz, (2%:R, 0)); (2%zz, (1, 1))].
Definition blank (pos : option (positions Q)) : pstate Q := mkP pos 0 1 [::].

Definition is_ok A (r : res A) : bool := if r is Ok _ then true else false.
Definition is_exn A (e : exn) (r : res A) : bool :=
  match e, r with KeyError, Raise KeyError => true | ValueError, Raise ValueError => true | _, _ => false end.
Definition shows (c : cmd Q) (xlo xhi ylo yhi : rat) : bool :=
  if c is Limits _ a b c d then [&& a == xlo, b == xhi, c == ylo & d == yhi] else false.
Definition is_node_text (c : cmd Q) : bool := if c is NodeText _ _ _ _ then true else false.

(** The labels of the nodes end up in axes 0 although axes 7 are given. *)
Theorem C80_node_labels_refuted : exists (sc : SC) (s : pstate Q) (ax : nat) (c : cmd Q),
  let r := draw_sc_nodes (@flat_layout Q) sc true (Some ax) [::] s in
  [/\ r.2 = Ok tt, In c (p_cmds r.1), is_node_text c & axes_of c <> ax].
Proof.
exists tri_sc, (blank (Some tri_pos)), 7%N, (NodeText 0 (place tri_pos Z0) Z0 (text_opts [::])).
rewrite nodes_run //; last by move=> n /= h; repeat (case: h => [<-|h] //).
by split=> //=; tauto.
Qed.
Print Assumptions C80_node_labels_refuted.

Example C81_example :
  let r := draw_network (@flat_layout Q) tri_sc (FlArray [:: 1; -1; 2%:R]) true true (Some 0%N) [::] (blank (Some tri_pos)) in
  [&& is_ok r.2, size (p_cmds r.1) == 13%N &
      shows (head (Margins 0 KNone) (p_cmds r.1)) (- (1 / 10%:R)) (21%:R / 10%:R) (- (1 / 20%:R)) (21%:R / 20%:R)].
Proof. by vm_compute. Qed.

Definition isolated_sc : SC :=
  mkSC [:: Z0; 1%zz; 2%zz; 3%zz] (sc_edges tri_sc) (sc_triangles tri_sc) nil nil (sc_B1 tri_sc) (sc_B2 tri_sc).

Example C72_example :
  is_ok (draw_sc_nodes (@flat_layout Q) tri_sc true None [::] (blank None)).2 /\
  is_exn KeyError (draw_sc_nodes (@flat_layout Q) isolated_sc true None [::] (blank None)).2 /\
  is_ok (draw_sc_nodes (@flat_layout Q) isolated_sc true None [::] (blank (Some (generate_coordinates (@flat_layout Q) isolated_sc)))).2.
Proof. by split; [|split]; vm_compute. Qed.

(** C80: with axes 7 given, only the three node labels go to the current axes 0; without axes, everything does. *)
Example C80_example :
  let r := draw_network (@flat_layout Q) tri_sc (FlArray [:: 1; -1; 2%:R]) true true (Some 7%N) [::] (blank (Some tri_pos)) in
  let r0 := draw_network (@flat_layout Q) tri_sc (FlArray [:: 1; -1; 2%:R]) true true None [::] (blank (Some tri_pos)) in
  [&& is_ok r.2, size (p_cmds r.1) == 13%N, seq.count (fun c => axes_of c == 7%N) (p_cmds r.1) == 10%N,
      seq.count is_node_text (p_cmds r.1) == 3%N & all (fun c => axes_of c == 0%N) (p_cmds r0.1)].
Proof. by vm_compute. Qed.
