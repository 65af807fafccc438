(** * C69, C70, C82, C83: flows, Hodge components and eigenvectors as drawn *)

From Coq Require Import ZArith String List.
From mathcomp Require Import all_ssreflect all_algebra ssrZ.
From Verif Require Import Py Complex Signal Eigen Plot PyFacts PlotFacts ComplexFacts LinAlg Bridge SignalSpec EigenSpec EigenFacts Props_Hodge Props_Eigen Props_Plot ExampleData Compute.

Set Implicit Arguments.
Unset Strict Implicit.
Unset Printing Implicit Defensive.

Import GRing.Theory Num.Theory Order.Theory.
Local Open Scope ring_scope.
Local Open Scope draw_scope.
Delimit Scope Z_scope with zz.

(** ** C69: colours *)

Section C69.
Variable R : realFieldType.
Variable layout : seq Z -> positions R.
Implicit Types (s : pstate R) (kw : kwargs R) (d : dict (Z * Z) (kval R)).

(** Each edge of [es] once, and at each position the value the pairs have for that edge. *)
Definition aligned (pairs : seq ((Z * Z) * kval R)) (es : seq (Z * Z)) (c : colour R) : Prop :=
  NoDup es /\ (forall e, In e es <-> In e (List.map fst pairs)) /\
  exists vs, c = CList vs /\ Forall2 (fun e v => In (e, v) pairs) es vs.

Lemma lines_colours sc f directed ax kw s edges l :
  (match f with FlNone => Ok (sc_edges sc, CRaw (arg kw "edge_color" (KStr "lightblue")))
   | FlDict d => Ok (dkeys d, CList (dvalues d)) | _ => Raise AttributeError end) = Ok (edges, l) ->
  forall nums, numbers_of l = Some nums ->
  let r := draw_sc_edges layout sc f directed ax kw s in
  exists new, p_cmds r.1 = p_cmds s ++ new /\ forall a es ends c arrows o, In (EdgeLines a es ends c arrows o) new ->
    es = digraph_edges edges /\ exists vs, c = CList vs /\ first_values edges nums es vs.
Proof.
move=> hf nums hn /=.
pose Q (c : cmd R) := match c with EdgeLines a es ends c arrows o => es = digraph_edges edges /\ exists vs, c = CList vs /\ first_values edges nums es vs | _ => True end.
suff: draws (fun _ => True) Q (fun _ => True) (draw_sc_edges layout sc f directed ax kw).
  move=> /(_ s I) [_ [[new [e h]] _]]; exists new; split=> // a es ends c arrows o /h; exact.
have hI : forall (s : pstate R) (cs : seq (cmd R)), True -> True by [].
have hV : forall (s : pstate R) n (p : point R), True -> (node_pos n s).2 = Ok p -> True by [].
have dnode n : draws (fun _ => True) Q (fun _ => True) (@node_pos R n) by apply: draws_node hV n.
have dinit a : draws (fun _ => True) Q (fun _ => True) (init_axes layout sc a).
  move=> s0 _; case e: (p_pos s0) => [[|p pos]|].
  - by rewrite init_axes_empty //; split=> //; split=> //; exists [::]; rewrite cats0.
  - by rewrite (init_axes_some _ _ _ e) //; split=> //; split=> //; eexists; split; first reflexivity; move=> c [<-|].
  - by rewrite (init_axes_none _ _ _ e); split=> //; split=> //; eexists; split; first reflexivity; move=> c [<-|].
rewrite /draw_sc_edges.
apply: (@draws_bind _ _ _ _ _ (fun _ => True)) => [|t _]; first exact: draws_lift.
apply: draws_if; first exact: draws_raise.
apply: (@draws_bind _ _ _ _ _ (fun _ => True)) => [|b _]; first exact: draws_pure.
apply: (draws_bind (dinit b)) => _ _.
apply: (@draws_bind _ _ _ _ _ (fun ec => ec = (edges, l))) => [|_ ->].
  by move: hf; case: f => [|d|?|?|?|?] //= [<- <-]; apply: draws_ret.
cbn [fst snd]; rewrite hn.
apply: (@draws_bind _ _ _ _ _ (fun c => exists vs, c.1 = CList vs /\ first_values edges nums (digraph_edges edges) vs)) => [|clim [vs [ec hvs]]].
  apply: (@draws_bind _ _ _ _ _ (fun _ => True)) => [|lim _].
    exact: (@draws_scale R (fun _ => True) Q hI b (fun _ _ => Logic.I)).
  apply: (@draws_bind _ _ _ _ _ (fun vs => mapM (colour_of edges nums) (digraph_edges edges) = Ok vs)) => [|vs hvs].
    by apply: draws_lift.
  by apply: draws_ret; exists vs; split=> //; apply: colours_first.
apply: (@draws_bind _ _ _ _ _ (fun _ => True)) => [|_ _].
  rewrite /nx_draw_edges; apply: draws_if; first exact: draws_ret.
  apply: (@draws_bind _ _ _ _ _ (fun _ => True)) => [|ends he]; last by apply: draws_emit => //=; split=> //; exists vs.
  apply: (@draws_weaken _ _ _ _ (Forall (fun _ => True))) => //; apply: draws_map => e.
  by apply: (draws_bind (dnode _)) => p hp; apply: (draws_bind (dnode _)) => q hq; apply: draws_ret.
apply: draws_for => tr; case: tr => [|i [|j [|k [|x tr]]]]; try exact: draws_raise.
by do 3!(apply: (draws_bind (dnode _)) => ? _); apply: draws_emit.
Qed.

Lemma digraph_NoDup E : NoDup (digraph_edges E).
Proof.
have := digraph_uniq E; elim: (digraph_edges E) => [|a l IH]; first by constructor.
by move=> /= /andP[/negP h /IH]; constructor=> // /in_mem.
Qed.

Lemma nth_both (A B : Type) (l : list (A * B)) k a b : nth_error (List.map fst l) k = Some a -> nth_error (List.map snd l) k = Some b ->
  In (a, b) l.
Proof.
elim: l k => [|[x y] l IH] [|k] //=; first by case=> -> [->]; left.
by move=> h1 h2; right; apply: IH h1 h2.
Qed.

(** A numeric flow dictionary: every edge of the dictionary is drawn once, in the colour of its own value. *)
Theorem C69_flow_colours sc d directed ax kw s : (forall v, In v (dvalues d) -> exists x, v = KNum x) ->
  let r := draw_sc_edges layout sc (FlDict d) directed ax kw s in
  exists new, p_cmds r.1 = p_cmds s ++ new /\
    forall a es ends c arrows o, In (EdgeLines a es ends c arrows o) new -> aligned d es c.
Proof.
move=> hd.
have hn : numbers_of (CList (dvalues d)) = Some [seq number_value v | v <- dvalues d].
  by rewrite /= ifT //; elim: (dvalues d) hd => //= v l IH h; rewrite IH ?andbT => [|u hu]; [have [x ->] := h v (or_introl erefl) | apply: h; right].
have [new [e h]] := lines_colours directed ax (kw := kw) s (sc := sc) (f := FlDict d) erefl hn.
exists new; split=> // a es ends c arrows o /h [-> [vs [-> hv]]]; split; first exact: digraph_NoDup.
split; first by move=> x; rewrite !in_mem digraph_mem.
exists vs; split=> //; elim: hv => [|x v es' vs' [k [y [h1 _ h3 ->]]] _ IH]; constructor=> //.
apply: (nth_both h1); rewrite -/(dvalues d).
have {h3} : nth_error (List.map (@number_value R) (dvalues d)) k = Some y := h3.
rewrite nth_error_map; case ev: (nth_error _ k) => [v'|] //= [ey].
by have [z ez] := hd _ (nth_error_In _ _ ev); rewrite ez -ey ez.
Qed.

(** A list of numbers as edge_color, without flow: each edge gets the colour at its (first) place in the edge list. *)
Theorem C69_colour_list sc l directed ax kw s : dget String.eqb kw "edge_color"%string = Ok (KNums l) ->
  let r := draw_sc_edges layout sc FlNone directed ax kw s in
  exists new, p_cmds r.1 = p_cmds s ++ new /\
    forall a es ends c arrows o, In (EdgeLines a es ends c arrows o) new ->
    NoDup es /\ (forall e, In e es <-> In e (sc_edges sc)) /\
    exists vs, c = CList vs /\ Forall2 (fun e v => exists k x, [/\ nth_error (sc_edges sc) k = Some e,
      (forall k', (k' < k)%coq_nat -> nth_error (sc_edges sc) k' <> Some e), nth_error l k = Some x & v = KNum x]) es vs.
Proof.
move=> hk.
have [new [e h]] := @lines_colours sc FlNone directed ax kw s (sc_edges sc) (CRaw (KNums l)) ltac:(by rewrite /arg hk) l erefl.
exists new; split=> // a es ends c arrows o /h [-> [vs [-> hv]]]; split; first exact: digraph_NoDup.
by split; [move=> x; rewrite !in_mem digraph_mem | exists vs].
Qed.

Lemma arg_absent kw k v : ~ In k (dkeys kw) -> arg kw k v = v.
Proof.
move=> h; rewrite /arg (_ : dget _ kw k = Raise KeyError) //.
elim: kw h => [|[k' w] kw IH] //= h; case: ifP => [/String.eqb_eq e|_]; last by apply: IH => h'; apply: h; right.
by case: h; left.
Qed.

(** The empty dictionary (what load_dataset returns for data without flow) cannot be drawn. *)
Theorem C69_empty_flow sc directed ax kw s : ~ In "edge_cmap"%string (dkeys kw) ->
  ~ In "edge_vmin"%string (dkeys kw) \/ ~ In "edge_vmax"%string (dkeys kw) ->
  (draw_sc_edges layout sc (FlDict [::]) directed ax kw s).2 = Raise ValueError.
Proof.
move=> hc hl; rewrite /draw_sc_edges (@dbind_Ok _ _ _ _ _ s s false) //.
rewrite (_ : false && ~~ is_dict (FlDict [::]) = false) // (@dbind_Ok _ _ _ _ _ s s (axes_or ax s)) //.
case: (p_pos s =P Some [::] :> option (seq (Z * (R * R)))) => [ep|/eqP ep].
  by rewrite (dbind_Raise _ (init_axes_empty _ _ _ ep)).
rewrite (dbind_Ok _ (init_axes_run _ _ _ _)); last by apply/eqP.
set s1 := added _ _; rewrite (@dbind_Ok _ _ _ _ _ s1 s1 ([::], CList [::])) //; cbn [fst snd].
rewrite (_ : numbers_of (CList [::]) = Some [::]) //.
suff h : colour_scale (axes_or ax s) (arg kw "edge_cmap" KCmap) (arg kw "edge_vmin" KNone) (arg kw "edge_vmax" KNone) [::] s1
    = (s1, Raise ValueError).
  by rewrite (dbind_Raise _ (dbind_Raise _ h)).
rewrite (arg_absent _ hc) /colour_scale.
case: hl => /arg_absent ->; first exact: dbind_Raise.
by case: (arg kw "edge_vmin" KNone).
Qed.

(** The empty string passes for an empty list of numbers: it cannot be the colour of the nodes. *)
Theorem C69_empty_string sc with_labels ax kw s : dget String.eqb kw "node_color"%string = Ok (KStr "") ->
  ~ In "cmap"%string (dkeys kw) -> ~ In "vmin"%string (dkeys kw) \/ ~ In "vmax"%string (dkeys kw) ->
  (draw_sc_nodes layout sc with_labels ax kw s).2 = Raise ValueError.
Proof.
move=> hk hc hl; rewrite /draw_sc_nodes (@dbind_Ok _ _ _ _ _ s s (axes_or ax s)) //.
case: (p_pos s =P Some [::] :> option (seq (Z * (R * R)))) => [ep|/eqP ep].
  by rewrite (dbind_Raise _ (init_axes_empty _ _ _ ep)).
rewrite (dbind_Ok _ (init_axes_run _ _ _ _)); last by apply/eqP.
set s1 := added _ _; rewrite (_ : arg kw "node_color" _ = KStr "") ?/arg ?hk // -/(arg _ _ _).
rewrite (_ : numbers_of (CRaw (KStr "")) = Some [::]) //.
suff h : colour_scale (axes_or ax s) (arg kw "cmap" KCmap) (arg kw "vmin" KNone) (arg kw "vmax" KNone) [::] s1
    = (s1, Raise ValueError).
  by rewrite (dbind_Raise _ h).
rewrite (arg_absent _ hc) /colour_scale.
case: hl => /arg_absent ->; first exact: dbind_Raise.
by case: (arg kw "vmin" KNone).
Qed.

End C69.
Print Assumptions C69_flow_colours.
Print Assumptions C69_empty_string.
Print Assumptions C69_colour_list.
Print Assumptions C69_empty_flow.

(** Colour names are not reordered: edges are drawn in another order than the dictionary's and get each other's colours. *)
Local Notation Q := rat_realFieldType.
Definition place3 : positions Q := [:: (Z0, (0, 0)); (1%zz, (2%:R, 0)); (2%zz, (1, 1))].
Definition named : dict (Z * Z) (kval Q) :=
  [:: ((Z0, 1%zz), KStr "red"); ((1%zz, 2%zz), KStr "green"); ((Z0, 2%zz), KStr "blue")]%string.

Theorem C69_colour_names_refuted : exists (sc : SC) (d : dict (Z * Z) (kval Q)) (s : pstate Q) layout a es ends c arrows o,
  NoDup (dkeys d) /\
  In (EdgeLines a es ends c arrows o) (p_cmds (draw_sc_edges layout sc (FlDict d) true None [::] s).1) /\
  ~ aligned d es c.
Proof.
exists tri_sc, named, (mkP (Some place3) 0 1 [::]), (fun _ => [::]).
exists 0%N, [:: (Z0, 1%zz); (Z0, 2%zz); (1%zz, 2%zz)].
exists [seq (place place3 e.1, place place3 e.2) | e <- [:: (Z0, 1%zz); (Z0, 2%zz); (1%zz, 2%zz)]].
exists (CList (dvalues named)), true, (line_opts [::] KNone KNone).
split; first by do 3!(constructor; first by rewrite /=; intuition congruence); constructor.
split.
  rewrite /draw_sc_edges (@dbind_Ok _ _ _ _ _ (mkP (Some place3) 0 1 [::]) (mkP (Some place3) 0 1 [::]) true) //.
  rewrite (_ : true && ~~ is_dict (FlDict named) = false) //.
  by rewrite /=; right; left.
case=> _ [_ [vs [[<-] h]]]; inversion h as [|e v l l' _ h' e1 e2]; inversion h' as [|e3 v3 l3 l3' h3 _ e5 e6].
by move: h3; rewrite /named /= => -[[]|[[]|[[]|]]].
Qed.
Print Assumptions C69_colour_names_refuted.

(** ** C82: the picture of a flow *)

Section C82.
Variable R : realFieldType.
Variable layout : seq Z -> positions R.
Implicit Types (s : pstate R) (kw : kwargs R) (pos : positions R).

(** A flow array is read edge by edge; extra values, or edges without value, are left out. *)
Theorem C82_flow_dictionary sc (l : seq R) : NoDup (sc_edges sc) ->
  dkeys (create_edge_flow sc l) = take (size l) (sc_edges sc) /\
  forall k e x, nth_error (sc_edges sc) k = Some e -> nth_error l k = Some x ->
    dget pair_eqb (create_edge_flow sc l) e = Ok (KNum x).
Proof.
move=> nd.
have u : uniq (sc_edges sc).
  by elim: nd => //= a l' h _ ->; rewrite andbT; apply/negP => /in_mem.
have e1 (A B : Type) (x : seq A) (y : seq B) : [seq p.1 | p <- zip x y] = take (size y) x.
  by elim: x y => [|a x IH] [|b y] //=; rewrite ?IH ?take0.
have -> : create_edge_flow sc l = zip (sc_edges sc) [seq KNum x | x <- l].
  by apply: (dict_of_uniq pair_eqbE); rewrite e1 take_uniq.
split; first by rewrite -[dkeys _]/[seq p.1 | p <- _] e1 size_map.
move=> k e x; move: u; elim: (sc_edges sc) l k {nd} => [|a E IH] [|b l] [|k] //= /andP[ua u].
  by case=> -> [->]; rewrite pair_eqbE eqxx.
move=> h1 h2; rewrite pair_eqbE; case: eqP => [ea|_]; last exact: IH h1 h2.
by case/negP: ua; apply/in_mem; rewrite ea; apply: nth_error_In h1.
Qed.

(** [draw_sc_edges] itself takes a dictionary or None.  Anything else fails: an array of more than one element with
    ValueError and every other non-empty collection or non-zero number with AssertionError, before anything is drawn. *)
Theorem C82_edges_argument sc f directed ax kw s :
  let r := draw_sc_edges layout sc f directed ax kw s in
  (forall x y l, f = FlArray (x :: y :: l) -> r = (s, Raise ValueError)) /\
  (forall x l, x <> 0 -> f = FlArray [:: x] \/ f = FlNumber x \/ f = FlList (x :: l) \/ f = FlTuple (x :: l) ->
     r = (s, Raise AssertionError)) /\
  (f <> FlNone -> (forall d, f <> FlDict d) -> exists e, snd r = Raise e).
Proof.
split; first by move=> x y l ->.
split.
  move=> x l /eqP x0 [->|[->|[->| ->]]]; rewrite /= /draw_sc_edges /dbind /dlift /draise /= ?x0 //.
move=> f1 f2; rewrite /draw_sc_edges /dbind /dlift /draise /=.
case: (truth f) => [t|e] /=; last by exists e.
have nd : is_dict f = false by case: f f2 {f1} => // d /(_ d).
rewrite nd; case: t => /=; first by exists AssertionError.
case: (init_axes _ _ _ _) => s' [u|e] /=; last by exists e.
by case: f f1 f2 nd => [|d|l|l|l|x] f1 f2 // nd; exists AttributeError.
Qed.

(** Positions for everything that is drawn. *)
Definition covers pos sc : Prop :=
  (forall n, In n (sc_nodes sc) -> In n (dkeys pos)) /\
  (forall e, In e (sc_edges sc) -> In (fst e) (dkeys pos) /\ In (snd e) (dkeys pos)) /\
  (forall t, In t (sc_triangles sc) -> length t = 3%N /\ forall n, In n t -> In n (dkeys pos)).

(** The commands for a flow [f]: limits, nodes with their names (in the current axes), colour bar, edges with their
    values as colours, triangles, values as labels beside the edges. *)
Definition picture sc pos (cur ax : nat) kw (off : R) (directed with_labels : bool) (f : seq R) : seq (cmd R) :=
  let pairs := zip (sc_edges sc) f in
  let font_size := arg kw "font_size" in
  let font := [:: ("color", arg kw "font_color" (KStr "k")); ("weight", arg kw "font_weight" (KStr "normal"))]%string in
  [:: frame ax pos;
      Scatter ax [seq place pos n | n <- sc_nodes sc]
        [:: ("s", arg kw "node_size" (KNum 300%:R)); ("c", KStr "#ff7f0e"); ("edgecolors", arg kw "node_edge_colors" (KStr "black"));
            ("vmin", arg kw "vmin" KNone); ("vmax", arg kw "vmax" KNone); ("alpha", arg kw "alpha" (KNum (8%:R / 10%:R)))]%string] ++
  margin_cmds ax kw ++
  (if with_labels then
    [seq NodeText cur (place pos n) n
       ([:: ("fontsize", font_size (KNum 12%:R))]%string ++ font ++ [:: ("alpha", arg kw "alpha" (KNum (8%:R / 10%:R)))]%string)
    | n <- sc_nodes sc] else [::]) ++
  frame ax pos :: edge_cmds sc ax pos kw directed pairs ++
  (if with_labels then
    frame ax pos ::
    [seq EdgeText ax (label_position (place pos x.1.1) (place pos x.1.2) off) (KNum x.2)
       ([:: ("size", font_size (KNum 10%:R))]%string ++ font ++ [:: ("alpha", arg kw "alpha" KNone)]%string)
    | x <- pairs] else [::]).

Lemma in_force_absent kw k : ~ In k (dkeys kw) -> ~ In k [:: "node_size"; "edge_width"; "arrowsize"; "font_size"]%string ->
  ~ In k (dkeys (in_force kw)).
Proof. by case: kw. Qed.

Theorem C82_picture sc f l directed with_labels ax kw s pos off :
  f = FlArray l \/ f = FlList l ->
  p_pos s = Some pos -> covers pos sc -> NoDup (sc_edges sc) -> sc_edges sc <> [::] -> l <> [::] ->
  (forall k, In k (dkeys kw) -> known k) ->
  ~ In "node_color"%string (dkeys kw) -> ~ In "edge_cmap"%string (dkeys kw) -> ~ In "edge_labels"%string (dkeys kw) ->
  arg (in_force kw) "offset" (KNum (15%:R / 100%:R)) = KNum off ->
  draw_network layout sc f directed with_labels (Some ax) kw s =
  (mkP (p_pos s) (p_cur s) (p_next s) (p_cmds s ++ picture sc pos (p_cur s) ax (in_force kw) off directed with_labels l), Ok tt).
Proof.
move=> hf ep [cn [ce ct]] nd ne nl hk hnc hec hel hoff.
rewrite (C68_forwarding layout sc f directed with_labels (Some ax) s hk) /=.
have -> : flow_values sc f = Some (FlDict (create_edge_flow sc l)) by case: hf => ->.
set pairs := zip (sc_edges sc) l.
have u : uniq (sc_edges sc).
  by elim: nd => //= a l' h _ ->; rewrite andbT; apply/negP => /in_mem.
have e1 (A B : Type) (x : seq A) (y : seq B) : [seq p.1 | p <- zip x y] = take (size y) x.
  by elim: x y => [|a x IH] [|b y] //=; rewrite ?IH ?take0.
have ed : create_edge_flow sc l = as_dict pairs.
  rewrite /create_edge_flow (dict_of_uniq pair_eqbE) ?e1 ?take_uniq // /as_dict /pairs.
  by elim: (sc_edges sc) (l) => [|a x IH] [|b y] //=; rewrite IH.
have np : pairs <> [::] by rewrite /pairs; case: (sc_edges sc) (l) ne nl => [|? ?] [|? ?].
have hend x : In x pairs -> x.1.1 \in dkeys pos /\ x.1.2 \in dkeys pos.
  move=> hx; have : In x.1 (sc_edges sc).
    by move: hx; rewrite /pairs; elim: (sc_edges sc) (l) => [|a y IH] [|b z] //= [<-|/IH]; [left | right].
  by move/ce => [/in_mem -> /in_mem ->].
have hne : pos <> [::].
  by case: (pairs) np hend => // x l' _ /(_ x (or_introl erefl)) [h _] z; move: h; rewrite z.
have hnc' := in_force_absent hnc ltac:(by move=> h; do 4!(case: h => [//|h])).
have hec' := in_force_absent hec ltac:(by move=> h; do 4!(case: h => [//|h])).
have epos : the_pos layout sc s = pos by rewrite /the_pos ep.
have hn : plain_colour (in_force kw) by rewrite /plain_colour (arg_absent _ hnc').
have run1 : draw_sc_nodes layout sc with_labels (Some ax) (in_force kw) s =
    (added s (frame ax pos :: node_cmds sc with_labels ax pos (in_force kw) (p_cur s)), Ok tt).
  rewrite nodes_run // ?ep ?epos; first by rewrite placed_id // /the_frame ep.
    by case.
  by move=> n /cn /in_mem.
rewrite (dbind_Ok _ run1) ed; set s1 := added s _; have e2 : p_pos s1 = Some pos by [].
have hcm : arg (in_force kw) "edge_cmap" KCmap = KNone \/ arg (in_force kw) "edge_cmap" KCmap = KCmap.
  by right; rewrite (arg_absent _ hec').
have htri : placed_triangles sc pos by move=> t /ct [h1 h2]; split=> // n /h2 /in_mem.
rewrite (dbind_Ok _ (edges_run layout directed ax e2 np hend htri hcm)).
have -> : all_numbers (FlDict (as_dict pairs)) by rewrite /all_numbers as_dict_values; elim: (pairs).
have -> : py_in String.eqb "edge_labels"%string (dkeys kw) = false by apply/negP => /py_in_str.
rewrite andbT; set s2 := added s1 _; have e3 : p_pos s2 = Some pos by [].
case: with_labels @s1 @s2 {run1} e2 e3 => s1 s2 e2 e3; last first.
  rewrite /s2 /s1 !added_cat /picture /node_cmds /scatter_opts (arg_absent _ hnc') -/pairs.
  by rewrite /added ?cats0 /= -?catA ?cats0.
rewrite (labels_run layout sc ax e3 np hend hoff) /s2 /s1 !added_cat /picture /node_cmds /scatter_opts (arg_absent _ hnc') -/pairs.
by rewrite /added /= -?catA.
Qed.

End C82.
Print Assumptions C82_flow_dictionary.
Print Assumptions C82_picture.
Print Assumptions C82_edges_argument.

(** ** C83: Hodge decomposition figures; C70: eigenvector figures *)

Section C83.
Variable R : realFieldType.
Variable layout : seq Z -> positions R.
Variable lstsq : forall m n, 'M[R]_(m, n) -> 'cV[R]_m -> 'cV[R]_n.
Variable rint : R -> int.
Variable eigsh : forall n, 'M[R]_n -> seq (R * 'cV[R]_n).
Implicit Types (s : pstate R) (pos : positions R).

(** One panel: new axes, a title, the picture of a flow in these axes with the default settings. *)
Definition panel sc pos (ax rows cols number : nat) (letter : string) (value : option R) (with_labels : bool) (f : seq R)
  : seq (cmd R) :=
  Subplot R ax rows cols number :: Title ax letter value ::
  picture sc pos ax ax
    [:: ("node_size", KNum 400%:R); ("edge_width", KNum 5%:R); ("arrowsize", KNum 30%:R); ("font_size", KNum 12%:R)]%string
    (15%:R / 100%:R) true with_labels f.

Definition drawable pos sc := covers pos sc /\ NoDup (sc_edges sc) /\ sc_edges sc <> [::].

Lemma panel_run sc pos s letter value rows cols number f wl : p_pos s = Some pos -> drawable pos sc -> f <> [::] ->
  (do! ax := add_subplot rows cols number in do! _ := emit (Title ax letter value) in
   draw_network layout sc (FlArray f) true wl (Some ax) [::]) s =
  (mkP (Some pos) (p_next s) (p_next s).+1 (p_cmds s ++ panel sc pos (p_next s) rows cols number letter value wl f), Ok tt).
Proof.
move=> ep [cv [nd ne]] nf.
rewrite (@dbind_Ok _ _ _ _ _ s (mkP (p_pos s) (p_next s) (p_next s).+1 (rcons (p_cmds s) (Subplot R (p_next s) rows cols number))) (p_next s)) //.
rewrite (dbind_Ok _ (emitE _ _)); set s1 := added _ _; have e1 : p_pos s1 = Some pos by [].
rewrite (@C82_picture _ layout sc (FlArray f) f true wl (p_next s) [::] s1 pos (15%:R / 100%:R)) //.
  by rewrite /s1 /added /= ep -cats1 -!catA.
exact: or_introl.
Qed.

(** Without a component name: gradient, curl and harmonic flow side by side. *)
Theorem C83_three_panels sc pos flow round_fig d s f_g f_c f_h : p_pos s = Some pos -> drawable pos sc ->
  get_component_flow lstsq rint sc flow "gradient" round_fig d = Ok f_g ->
  get_component_flow lstsq rint sc flow "curl" round_fig d = Ok f_c ->
  get_component_flow lstsq rint sc flow "harmonic" round_fig d = Ok f_h ->
  f_g <> [::] -> f_c <> [::] -> f_h <> [::] ->
  let a := p_next s in
  draw_hodge_decomposition layout lstsq rint sc flow None round_fig d s =
  (mkP (Some pos) a.+2 a.+3 (p_cmds s ++ panel sc pos a 1 3 1 "G" None true f_g ++ panel sc pos a.+1 1 3 2 "C" None true f_c ++
     panel sc pos a.+2 1 3 3 "H" None true f_h), Ok tt).
Proof.
move=> ep dr eg ec eh ng nc nh a; rewrite /draw_hodge_decomposition eg ec eh.
have hl (f : seq R) : dlift (Ok f) s = (s, Ok f) by [].
rewrite (dbind_Ok _ (hl f_g)) (dbind_Ok _ (hl f_c)) (dbind_Ok _ (hl f_h)).
rewrite (dbind_Ok _ (panel_run "G" None 1 3 1 true ep dr ng)); set s1 := mkP _ _ _ _.
rewrite (dbind_Ok _ (@panel_run sc pos s1 "C" None 1 3 2 f_c true erefl dr nc)); set s2 := mkP _ _ _ _.
rewrite /flow_panel (@panel_run sc pos s2 "H" None 1 3 3 f_h true erefl dr nh) /s2 /s1; cbn [p_next p_cmds p_cur p_pos].
by rewrite -/a -!catA.
Qed.

(** For a valid complex and a flow on its edges the three flows exist and, unless rounded, add up to the flow. *)
Theorem C83_sum nodes E T nf ef sc pos flow d s : lstsq_contract lstsq -> make_sc nodes E T nf ef = Ok sc -> size flow = length E ->
  p_pos s = Some pos -> drawable pos sc ->
  exists f_g f_c f_h, flow = addf (addf f_g f_c) f_h /\
  let a := p_next s in
  draw_hodge_decomposition layout lstsq rint sc flow None false d s =
  (mkP (Some pos) a.+2 a.+3 (p_cmds s ++ panel sc pos a 1 3 1 "G" None true f_g ++ panel sc pos a.+1 1 3 2 "C" None true f_c ++
     panel sc pos a.+2 1 3 3 "H" None true f_h), Ok tt).
Proof.
move=> ls hm sf ep dr.
have [g [c [h [eg [ec [eh [sg [s_c [sh [e _]]]]]]]]]] := C19_decomposition rint ls hm sf d.
have eE : sc_edges sc = E by have [_ [-> _]] := make_sc_Ok _ _ _ _ _ _ hm.
have nE : (0 < length E)%N by case: dr => _ [_]; rewrite eE; case: (E).
have ne (x : seq R) : size x = length E -> x <> [::] by move=> ex z; move: nE; rewrite -ex z.
by exists g, c, h; split=> // a; apply: C83_three_panels; rewrite //; apply: ne.
Qed.

(** With a component name: that component alone; an invalid name or flow raises before anything is drawn. *)
Theorem C83_one_panel sc pos flow c letter round_fig d s f : p_pos s = Some pos -> drawable pos sc ->
  In (c, letter) [:: ("gradient", "G"); ("curl", "C"); ("harmonic", "H")]%string ->
  get_component_flow lstsq rint sc flow c round_fig d = Ok f -> f <> [::] ->
  draw_hodge_decomposition layout lstsq rint sc flow (Some c) round_fig d s =
  (mkP (Some pos) (p_next s) (p_next s).+1 (p_cmds s ++ panel sc pos (p_next s) 1 1 1 letter None true f), Ok tt).
Proof.
move=> ep dr hc ef nf; rewrite /draw_hodge_decomposition (@dbind_Ok _ _ _ _ _ s s f) /dlift ?ef //.
have -> : initial c = letter by case: hc => [[<- <-]|[[<- <-]|[[<- <-]|]]].
exact: panel_run.
Qed.

Theorem C83_no_component sc flow c round_fig d s e :
  get_component_flow lstsq rint sc flow c round_fig d = Raise e ->
  draw_hodge_decomposition layout lstsq rint sc flow (Some c) round_fig d s = (s, Raise e).
Proof. by move=> h; rewrite /draw_hodge_decomposition /dbind /dlift h. Qed.

(** The eigenvectors to draw: those with the given indices (counted from the end if negative), or all. *)
Definition selects (ps : seq (R * seq R)) (i : Z) (p : R * seq R) : Prop := exists k,
  nth_error ps k = Some p /\ (i = Z.of_nat k \/ i = (Z.of_nat k - Z.of_nat (length ps))%zz).
Definition chosen (ps : seq (R * seq R)) (idx : seq Z) (vs : seq (R * seq R)) : Prop :=
  if idx is [::] then vs = ps else Forall2 (selects ps) idx vs.

Lemma selectsE ps i p : selects ps i p -> py_nth ps i = Ok p.
Proof.
case=> k [hk hi]; rewrite /py_nth.
have hn : (k < length ps)%coq_nat by apply/nth_error_Some; rewrite hk.
have -> : np_index (length ps) i = Ok k by apply/np_index_Ok.
by rewrite /= hk.
Qed.

(** A grid for n panels: at most three columns, no superfluous row. *)
Definition grid (n rows cols : nat) : Prop :=
  [/\ (0 < cols <= 3)%N, (n <= rows * cols)%N, (rows * cols < n + cols)%N & (n <= 3)%N -> cols = n /\ rows = 1%N].

Lemma gridP n : (0 < n)%N -> grid n (n %/ minn n 3 + (n %% minn n 3 != 0))%N (minn n 3).
Proof.
move=> h; set c := minn n 3.
have c0 : (0 < c)%N by rewrite leq_min h.
have e := divn_eq n c; have l := ltn_pmod n c0.
split=> //; first by rewrite c0 geq_minr.
- by rewrite mulnDl {1}e leq_add2l; case: (n %% c)%N l => //= r l; rewrite mul1n ltnW.
- rewrite mulnDl; case em: (n %% c)%N => [|r] /=; rewrite ?mul0n ?mul1n; first by rewrite addn0 {2}e em addn0 -[X in (X < _)%N]addn0 ltn_add2l.
  by rewrite {2}e em ltn_add2r -[X in (X < _)%N]addn0 ltn_add2l.
- by move=> h3; rewrite /c (minn_idPl h3) divnn h modnn.
Qed.

Lemma eigen_loop sc pos letter rows cols d wl (sel : R * seq R -> seq R) ps : drawable pos sc -> forall idx vs i s,
  Forall2 (selects ps) idx vs -> (forall v, In v vs -> sel v <> [::]) -> p_pos s = Some pos ->
  dfor (enumerate_from i idx) (fun it =>
      do! ax := add_subplot rows cols it.1.+1 in
      do! p := dlift (py_nth ps it.2) in
      do! _ := emit (Title ax letter (Some (np_round1 rint d p.1))) in
      draw_network layout sc (FlArray (sel p)) true wl (Some ax) [::]) s =
  (mkP (Some pos) (if vs is [::] then p_cur s else (p_next s + size vs).-1) (p_next s + size vs)
     (p_cmds s ++ flatten [seq panel sc pos (p_next s + j) rows cols (i + j).+1 letter
                               (Some (np_round1 rint d (nth (0, [::]) vs j).1)) wl (sel (nth (0, [::]) vs j)) | j <- iota 0 (size vs)]), Ok tt).
Proof.
move=> dr idx vs i s hf; elim: hf i s => {idx vs} [|z v idx vs hz _ IH] i s hv ep.
  by rewrite /= cats0 addn0 -ep; case: s {ep}.
rewrite [enumerate_from _ _]/= [dfor _ _]/=.
set body := (do! ax := add_subplot _ _ _ in _).
have hb : body s = (mkP (Some pos) (p_next s) (p_next s).+1 (p_cmds s ++ panel sc pos (p_next s) rows cols i.+1 letter (Some (np_round1 rint d v.1)) wl (sel v)), Ok tt).
  rewrite -(panel_run letter (Some (np_round1 rint d v.1)) rows cols i.+1 wl ep dr (hv v (or_introl erefl))).
  by rewrite /body /= (selectsE hz).
rewrite (dbind_Ok _ hb) IH //; last by move=> w hw; apply: hv; right.
cbn [p_cur p_next p_cmds size].
have -> : ((p_next s).+1 + size vs = p_next s + (size vs).+1)%N by rewrite addSnnS.
have -> : (if vs is [::] then p_next s else (p_next s + (size vs).+1).-1) = (p_next s + (size vs).+1).-1.
  by case: (vs) => //; rewrite addn1.
congr (mkP _ _ _ _, _); rewrite -catA; congr (_ ++ _).
rewrite -[iota 0 (size vs).+1]/(0%N :: iota 1 (size vs)) map_cons [flatten (_ :: _)]/= !addn0; congr (_ ++ _).
rewrite (iotaDl 1 0) -map_comp; congr flatten; apply: eq_map => j /=.
by rewrite add1n !addnS !addSn.
Qed.

(** One panel per eigenvector, titled with its eigenvalue, in a grid of at most three columns. *)
Theorem C70_panels nodes E T nf ef sc pos component letter idx round_fig d with_labels s ps vs :
  make_sc nodes E T nf ef = Ok sc ->
  In (component, letter) [:: ("gradient", "G"); ("curl", "C"); ("harmonic", "H")]%string ->
  p_pos s = Some pos -> drawable pos sc ->
  get_component_eigenpair eigsh sc component 1000%:R^-1 = Ok ps -> chosen ps idx vs -> vs <> [::] ->
  let n := size vs in let a := p_next s in
  let shown v := if round_fig then np_round rint v d else v in
  exists rows cols, grid n rows cols /\
  draw_eigenvectors layout rint eigsh sc component idx round_fig d with_labels s =
  (mkP (Some pos) (a + n).-1 (a + n)
     (p_cmds s ++ flatten [seq panel sc pos (a + j) rows cols j.+1 letter (Some (np_round1 rint d (nth (0, [::]) vs j).1)) with_labels
                                 (shown (nth (0, [::]) vs j).2) | j <- iota 0 n]), Ok tt).
Proof.
move=> hm hc ep dr hps hch nv n a shown.
have eE : sc_edges sc = E by have [_ [-> _]] := make_sc_Ok _ _ _ _ _ _ hm.
have nE : (0 < length E)%N by case: dr => _ [_]; rewrite eE; case: (E).
have hps' v : In v ps -> v.2 <> [::].
  have up_ne (l : seq (R * 'cV[R]_(length E))) : In v (up l) -> v.2 <> [::].
    by rewrite /up => /in_map_iff [q [<- _]] /= z; move: nE; rewrite -(size_unvec q.2) z.
  move: hps; case: hc => [[<- _]|[[<- _]|[[<- _]|//]]].
  - by rewrite (eigG eigsh hm) ?eps64_milli // => -[<-]; apply: up_ne.
  - by rewrite (eigC eigsh hm) ?eps64_milli // => -[<-]; apply: up_ne.
  - by rewrite (eigH eigsh hm) ?eps64_milli // => -[<-]; apply: up_ne.
have hv v : In v vs -> v.2 <> [::].
  move=> h; apply: hps'; move: hch; rewrite /chosen; case: idx => [<-|z idx hf] //.
  by elim: hf h => // z' v' idx' vs' [k [hk _]] _ IH [<-|/IH] //; apply: nth_error_In hk.
have n0 : (0 < n)%N by rewrite /n; case: (vs) nv.
exists (n %/ minn n 3 + (n %% minn n 3 != 0))%N, (minn n 3); split; first exact: gridP.
rewrite /draw_eigenvectors (@dbind_Ok _ _ _ _ _ s s ps); last by rewrite /dlift /milli hps.
set indices := if nilp idx then _ else _.
have hsel : Forall2 (selects ps) indices vs.
  move: hch; rewrite /chosen /indices; case: idx {indices} => [->|] //=.
  have : forall l pre, ps = pre ++ l -> Forall2 (selects ps) [seq Z.of_nat i | i <- iota (size pre) (size l)] l.
    elim=> [|x l IH] pre e /=; first by constructor.
    constructor; last by have := IH (rcons pre x); rewrite size_rcons; apply; rewrite e cat_rcons.
    exists (size pre); split; last by left.
    by rewrite e; elim: pre {e} => //=.
  by move/(_ ps [::] erefl).
have en : size indices = n by rewrite /n; elim: hsel => //= *; congr _.+1.
have -> : initial component = letter by case: hc => [[<- <-]|[[<- <-]|[[<- <-]|]]].
rewrite en ifF; last by rewrite gtn_eqF // leq_min n0.
rewrite /enumerate (@eigen_loop sc pos letter _ _ d with_labels (fun v => shown v.2) ps dr indices vs 0 s) //.
  by congr (mkP _ _ _ _, _); rewrite -/n; case: (vs) nv.
move=> v /hv; rewrite /shown; case: round_fig {shown} => //; by case: (v.2).
Qed.

(** No eigenvector to draw. *)
Theorem C70_nothing sc component round_fig d with_labels s :
  get_component_eigenpair eigsh sc component 1000%:R^-1 = Ok [::] ->
  draw_eigenvectors layout rint eigsh sc component [::] round_fig d with_labels s = (s, Raise ZeroDivisionError).
Proof. by move=> h; rewrite /draw_eigenvectors /dbind /dlift /milli h. Qed.

(** An unknown component: ValueError before anything is drawn. *)
Theorem C70_unknown sc component idx round_fig d with_labels s :
  ~ In component [:: "gradient"; "curl"; "harmonic"]%string ->
  draw_eigenvectors layout rint eigsh sc component idx round_fig d with_labels s = (s, Raise ValueError).
Proof.
move=> h; rewrite /draw_eigenvectors; apply: dbind_Raise; rewrite /dlift /get_component_eigenpair.
do 3!(case: String.eqb_spec => [e|_]; first by case: h; rewrite e /=; tauto).
by [].
Qed.

End C83.
Print Assumptions C83_three_panels.
Print Assumptions C83_sum.
Print Assumptions C83_one_panel.
Print Assumptions C83_no_component.
Print Assumptions C70_panels.
Print Assumptions C70_nothing.
Print Assumptions C70_unknown.

(** ** Examples: the filled triangle *)

Lemma tri_drawable : drawable place3 tri_sc.
Proof.
split; last by split=> //; do 3!(constructor; first by rewrite /=; intuition congruence); constructor.
split; first by move=> n /= h; repeat (case: h => [<-|h]); rewrite /=; tauto.
split; first by move=> e /= h; repeat (case: h => [<-|h]); rewrite /=; tauto.
by move=> t /= [<-|//]; split=> // n /= h; repeat (case: h => [<-|h]); rewrite /=; tauto.
Qed.

(** An unknown keyword, a forwarded width, and the accepted but unusable [edge_labels]. *)
Example C68_example :
  (exists k, In k (dkeys [:: ("colour"%string, KStr "red" : kval Q)]) /\ ~ known k) /\
  (forall k, In k (dkeys [:: ("edge_width"%string, KNum 2%:R : kval Q); ("edge_labels"%string, KStr "x")]) -> known k) /\
  (draw_network (fun _ => [::]) tri_sc (FlArray [:: 1; -1; 2%:R]) true true (Some 0%N)
     [:: ("edge_width"%string, KNum (2%:R : Q)); ("edge_labels"%string, KStr "x")] (mkP (Some place3) 0 1 [::])).2 = Raise TypeError /\
  (draw_network (fun _ => [::]) tri_sc (FlArray [:: 1; -1; 2%:R]) true true (Some 0%N)
     [:: ("edge_width"%string, KNum (2%:R : Q))] (mkP (Some place3) 0 1 [::])).2 = Ok tt.
Proof.
split; first by exists "colour"%string; split; [left | rewrite /known /=; intuition congruence].
split; first by move=> k [<-|[<-|//]]; rewrite /known /=; tauto.
by split; vm_compute.
Qed.

(** Three numbers given in another order than the complex lists its edges. *)
Definition numbered : dict (Z * Z) (kval Q) := [:: ((Z0, 1%zz), KNum 5%:R); ((1%zz, 2%zz), KNum (-1)); ((Z0, 2%zz), KNum 2%:R)].
Example C69_example :
  (forall v, In v (dvalues numbered) -> exists x, v = KNum x) /\ NoDup (dkeys numbered) /\
  (draw_sc_edges (fun _ => [::]) tri_sc (FlDict numbered) true None [::] (mkP (Some place3) 0 1 [::])).2 = Ok tt.
Proof.
split; first by move=> v [<-|[<-|[<-|//]]]; eexists. split; last by vm_compute.
by do 3!(constructor; first by rewrite /=; intuition congruence); constructor.
Qed.

Example C69_empty_string_example :
  (draw_sc_nodes (fun _ => [::]) tri_sc true None [:: ("node_color", KStr "")]%string (mkP (Some place3) 0 1 [::])).2
    = Raise ValueError /\
  (draw_sc_nodes (fun _ => [::]) tri_sc true None [:: ("node_color", KStr "red")]%string (mkP (Some place3) 0 1 [::])).2
    = Ok tt.
Proof. by split; vm_compute. Qed.

Example C82_C83_example :
  lstsq_contract (@ls_sol [realFieldType of rat]) /\ make_sc tri_nodes tri_edges tri_triangles nil nil = Ok tri_sc /\
  size [:: 1; 0; 0 : rat] = length tri_edges /\ drawable place3 tri_sc /\ [:: 1; 0; 0 : rat] <> [::].
Proof. by have [_ [h _]] := C19_example; split=> //; split; [exact: tri_ok | split=> //; split=> //; exact: tri_drawable]. Qed.

(** C70: no harmonic eigenvector, two gradient eigenvectors. *)
Example C70_example : forall (R : realFieldType) eigsh, eigsh_contract eigsh ->
  get_component_eigenpair eigsh tri_sc "harmonic" (1000%:R^-1 : R) = Ok [::] /\
  exists gs, get_component_eigenpair eigsh tri_sc "gradient" (1000%:R^-1 : R) = Ok gs /\ chosen gs [::] gs /\ gs <> [::].
Proof.
move=> R eigsh h; have [_ [_ [_ [_ [_ [_ [_ [_ [_ k]]]]]]]]] := C25_C29_example.
have [hs [cs [gs [e1 [s1 [_ [_ [e3 s3]]]]]]]] := k R eigsh h.
split; first by rewrite [LHS]e1; case: hs s1 {e1}.
by exists gs; split=> //; split=> //; case: gs s3 {e3}.
Qed.
