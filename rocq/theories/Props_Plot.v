(** * C68, C71: keywords and label positions of the plots *)

From Coq Require Import ZArith String List.
From mathcomp Require Import all_ssreflect all_algebra ssrZ.
From Verif Require Import Py Complex Signal Eigen Plot PyFacts PlotFacts ExampleData Compute.

Set Implicit Arguments.
Unset Strict Implicit.
Unset Printing Implicit Defensive.

Import GRing.Theory Num.Theory Order.Theory.
Local Open Scope ring_scope.
Local Open Scope draw_scope.

(** ** C68: keywords *)

(** The documented keywords of the three routines, without the four named parameters of draw_network. *)
Definition node_keywords : seq string :=
  [:: "node_size"; "node_color"; "node_edge_colors"; "font_size"; "font_color"; "font_weight"; "cmap"; "vmin"; "vmax";
   "alpha"; "margins"]%string.
Definition edge_keywords : seq string :=
  [:: "edge_color"; "edge_width"; "arrowsize"; "edge_cmap"; "edge_vmin"; "edge_vmax"; "alpha"]%string.
Definition label_keywords : seq string :=
  [:: "edge_labels"; "font_size"; "font_color"; "font_weight"; "offset"; "alpha"]%string.
Definition known (k : string) : Prop := In k node_keywords \/ In k edge_keywords \/ In k label_keywords.

Ltac in_cases h := simpl in h; repeat (match type of h with _ \/ _ => destruct h as [h|h] end); try contradiction; subst.

Section C68.
Variable R : realFieldType.
Variable layout : seq Z -> positions R.
Implicit Types (s : pstate R) (kw : kwargs R).

Lemma valid_known k : valid_kwarg k = true <-> known k.
Proof.
split.
  move/andP=> [/py_in_str h hn].
  by in_cases h; try discriminate hn; rewrite /known /=; tauto.
by case=> [h|[h|h]]; in_cases h.
Qed.

(** An unknown keyword: ValueError, nothing is drawn. *)
Theorem C68_unknown_keyword sc f directed with_labels ax kw s : (exists k, In k (dkeys kw) /\ ~ known k) ->
  draw_network layout sc f directed with_labels ax kw s = (s, Raise ValueError).
Proof.
case=> k [hk nk]; rewrite /draw_network.
have ne : nilp kw = false by case: kw hk.
rewrite ne ifT //.
elim: (dkeys kw) hk => [|a l IH] //= [e|/IH ->]; last by rewrite orbT.
by rewrite e (_ : valid_kwarg k = false) //; apply/negP => /valid_known.
Qed.

Lemma all_known kw : (forall k, In k (dkeys kw) -> known k) -> has (fun k => ~~ valid_kwarg k) (dkeys kw) = false.
Proof.
elim: (dkeys kw) => [|a l IH] //= h; rewrite IH; last by move=> k hk; apply: h; right.
by rewrite orbF (proj2 (valid_known a)) //; apply: h; left.
Qed.

Lemma call_ok params explicit kw s : (forall k, In k (dkeys kw) -> In k params -> ~ In k explicit) ->
  call_kw params explicit (restrict params kw) s = (s, Ok tt).
Proof.
move=> he; rewrite /call_kw ifT //; elim: kw he => [|[k v] kw IH] //= he.
have IH' : all (fun k => py_in String.eqb k params && ~~ py_in String.eqb k explicit) (dkeys (restrict params kw)).
  by apply: IH => x hx; apply: he; right.
case hp: (py_in _ k params) => //=.
rewrite hp IH' andbT /=; apply/negP => /py_in_str; apply: he; first by left.
exact/py_in_str.
Qed.

Lemma call_bad params explicit kw s k : In k (dkeys kw) -> In k params -> In k explicit ->
  call_kw params explicit (restrict params kw) s = (s, Raise TypeError).
Proof.
move=> hk hp he; rewrite /call_kw ifF //.
elim: kw hk => [|[k' v] kw IH] //= [->|h].
  by rewrite (proj2 (py_in_str _ _) hp) /= (proj2 (py_in_str _ _) he) andbF.
by case: (py_in _ k' params); rewrite /= ?IH ?andbF.
Qed.

Lemma nodes_restrict sc wl ax kw : draw_sc_nodes layout sc wl ax (restrict node_params kw) = draw_sc_nodes layout sc wl ax kw.
Proof. by rewrite /draw_sc_nodes !arg_restrict //=; tauto. Qed.
Lemma edges_restrict sc f d ax kw : draw_sc_edges layout sc f d ax (restrict edge_params kw) = draw_sc_edges layout sc f d ax kw.
Proof. by rewrite /draw_sc_edges !arg_restrict //=; tauto. Qed.
Lemma labels_restrict sc f ax kw : draw_edge_labels layout sc f ax (restrict label_params kw) = draw_edge_labels layout sc f ax kw.
Proof. by rewrite /draw_edge_labels !arg_restrict //=; tauto. Qed.

(** The keywords in force: those given, or four defaults if none is given. *)
Definition in_force kw : kwargs R :=
  if kw is [::] then [:: ("node_size", KNum 400%:R); ("edge_width", KNum 5%:R); ("arrowsize", KNum 30%:R); ("font_size", KNum 12%:R)]%string
  else kw.

(** What a flow argument stands for: nothing to colour, or one value per edge. *)
Definition flow_values (sc : SC) (f : flow_arg R) : option (flow_arg R) :=
  match f with
  | FlArray l | FlList l => Some (FlDict (create_edge_flow sc l))
  | FlTuple _ => None
  | _ => Some f
  end.
Definition all_numbers (f : flow_arg R) : bool :=
  if f is FlDict d then all (fun v => if v is KNum _ then true else false) (dvalues d) else false.

Lemma in_force_known kw : (forall k, In k (dkeys kw) -> known k) -> forall k, In k (dkeys (in_force kw)) -> known k.
Proof.
case: kw => [|it kw] //= _ k h.
by in_cases h; rewrite /known /=; tauto.
Qed.

(** Known keywords: the nodes, the edges and, if asked for and if every flow value is a number, the edge labels are
    drawn, each routine with the value given for every keyword it takes; the keyword edge_labels is accepted but
    makes the drawing of the labels fail with TypeError. *)
Theorem C68_forwarding sc f directed with_labels ax kw s : (forall k, In k (dkeys kw) -> known k) ->
  let opts := in_force kw in
  let ax' := Some (if ax is Some a then a else p_cur s) in
  draw_network layout sc f directed with_labels ax kw s =
  match flow_values sc f with
  | None => (s, Raise AttributeError)
  | Some f' =>
      (do! _ := draw_sc_nodes layout sc with_labels ax' opts in
       do! _ := draw_sc_edges layout sc f' directed ax' opts in
       if with_labels && all_numbers f' then
         if py_in String.eqb "edge_labels"%string (dkeys kw) then draise TypeError
         else draw_edge_labels layout sc f' ax' opts
       else dret tt) s
  end.
Proof.
move=> hk /=; rewrite /draw_network.
have -> : (if nilp kw then default_kwargs R else kw) = in_force kw by case: kw {hk}.
have hk' := in_force_known hk.
rewrite (all_known hk').
set ax' := if ax is Some a then a else _.
rewrite (@dbind_Ok _ _ _ _ _ s s ax') //.
set f' := (match f with FlNone => f | _ => _ end).
have c1 s0 : call_kw node_params [:: "with_labels"; "ax"]%string (restrict node_params (in_force kw)) s0 = (s0, Ok tt).
  by apply: call_ok => // k /hk' [h|[h|h]] _ h'; in_cases h; in_cases h'.
have c2 s0 : call_kw edge_params [:: "edge_flow"; "directed"; "ax"]%string (restrict edge_params (in_force kw)) s0 = (s0, Ok tt).
  by apply: call_ok => // k /hk' [h|[h|h]] _ h'; in_cases h; in_cases h'.
have e3 : forall f0 s0, (do! _ := call_kw label_params [:: "edge_labels"; "ax"]%string (restrict label_params (in_force kw)) in
      draw_edge_labels layout sc f0 (Some ax') (restrict label_params (in_force kw))) s0 =
      (if py_in String.eqb "edge_labels"%string (dkeys kw) then draise TypeError
         else draw_edge_labels layout sc f0 (Some ax') (in_force kw)) s0.
  move=> f0 s0.
  have -> : py_in String.eqb "edge_labels"%string (dkeys kw) = py_in String.eqb "edge_labels"%string (dkeys (in_force kw)).
    by case: (kw).
  case hl: (py_in _ _ _).
    move/py_in_str: hl => hl; apply: dbind_Raise; apply: (call_bad _ hl) => /=; tauto.
  have nl : ~ In "edge_labels"%string (dkeys (in_force kw)) by move/py_in_str; rewrite hl.
  rewrite (@dbind_Ok _ _ _ _ _ s0 s0 tt) ?labels_restrict //.
  apply: call_ok => k h _ h'; in_cases h'; first exact: nl.
  by case: (hk' _ h) => [h'|[h'|h']]; in_cases h'.
have main : forall f0 (num : bool), num = all_numbers f0 ->
    (do! _ := call_kw node_params [:: "with_labels"; "ax"]%string (restrict node_params (in_force kw)) in
     do! _ := draw_sc_nodes layout sc with_labels (Some ax') (restrict node_params (in_force kw)) in
     do! _ := call_kw edge_params [:: "edge_flow"; "directed"; "ax"]%string (restrict edge_params (in_force kw)) in
     do! _ := draw_sc_edges layout sc f0 directed (Some ax') (restrict edge_params (in_force kw)) in
     if with_labels && num then
       do! _ := call_kw label_params [:: "edge_labels"; "ax"]%string (restrict label_params (in_force kw)) in
       draw_edge_labels layout sc f0 (Some ax') (restrict label_params (in_force kw))
     else dret tt) s =
    (do! _ := draw_sc_nodes layout sc with_labels (Some ax') (in_force kw) in
     do! _ := draw_sc_edges layout sc f0 directed (Some ax') (in_force kw) in
     if with_labels && all_numbers f0 then
       if py_in String.eqb "edge_labels"%string (dkeys kw) then draise TypeError
       else draw_edge_labels layout sc f0 (Some ax') (in_force kw)
     else dret tt) s.
  move=> f0 num ->; rewrite (dbind_Ok _ (c1 s)) nodes_restrict edges_restrict /dbind.
  case: (draw_sc_nodes _ _ _ _ _ s) => s1 [u|x] //; rewrite c2.
  case: (draw_sc_edges _ _ _ _ _ _ s1) => s3 [u3|x3] //.
  by case: ifP => // _; have := e3 f0 s3; rewrite /dbind.
rewrite /f' {f'}; case: f => [|d|l|l|l|x] //; exact: main.
Qed.

End C68.
Print Assumptions C68_unknown_keyword.
Print Assumptions C68_forwarding.

(** ** C71: label positions *)

Section C71.
Variable R : realFieldType.
Implicit Types (p q : point R) (off : R).

Definition midpoint p q : point R := ((p.1 + q.1) / 2%:R, (p.2 + q.2) / 2%:R).

Lemma half : (5%:R / 10%:R : R) = 2%:R^-1.
Proof.
have -> : (10%:R : R) = 5%:R * 2%:R by rewrite -natrM.
by rewrite invfM mulrA divff ?mul1r // pnatr_eq0.
Qed.

Lemma mid (a b : R) : a * (5%:R / 10%:R) + b * (1 - 5%:R / 10%:R) = (a + b) / 2%:R.
Proof.
have e : (1 - 2%:R^-1 : R) = 2%:R^-1.
  apply: (@addIr _ 2%:R^-1); rewrite subrK.
  have -> : (2%:R^-1 + 2%:R^-1 : R) = 2%:R * 2%:R^-1 by rewrite [RHS]mulr_natl mulr2n.
  by rewrite divff // pnatr_eq0.
by rewrite half e mulrDl.
Qed.

(** The cases: a vertical edge, a horizontal one, a nearly horizontal one, any other. *)
Theorem C71_cases p q off : let m := midpoint p q in let l := label_position p q off in
  [\/ p.1 = q.1 /\ l = (m.1 + off / 3%:R, m.2),
      p.1 <> q.1 /\ p.2 = q.2 /\ l = (m.1, m.2 - off),
      [/\ p.1 <> q.1, p.2 <> q.2, `|q.2 - p.2| * 10%:R <= `|q.1 - p.1| & l = (m.1, m.2 + off / 2%:R)] |
      [/\ p.1 <> q.1, p.2 <> q.2, `|q.1 - p.1| < `|q.2 - p.2| * 10%:R & l = (m.1 - off, m.2 + off)]].
Proof.
case: p q => [x1 y1] [x2 y2] /=; rewrite /label_position /midpoint /= !mid.
case: (x2 - x1 =P 0) => [/eqP|dx].
  by rewrite subr_eq0 => /eqP ->; rewrite normr0 !eqxx; constructor 1.
have nx : x1 <> x2 by move=> e; apply: dx; rewrite e subrr.
have nx' : x2 - x1 != 0 by apply/eqP.
rewrite normr_eq0 mulf_eq0 invr_eq0 (negbTE nx') orbF.
case: (y2 - y1 =P 0) => [/eqP|dy].
  rewrite subr_eq0 => /eqP ->; have /eqP/negbTE -> := nx; by constructor 2.
have ny : y1 <> y2 by move=> e; apply: dy; rewrite e subrr.
have pos : 0 < `|x2 - x1| by rewrite normr_gt0.
rewrite /tenth mul1r normrM normfV ler_pdivr_mulr // mulrC ler_pdivl_mulr ?ltr0n //.
by case: leP => h; [constructor 3 | constructor 4].
Qed.

Theorem C71_direction p q off : label_position p q off = label_position q p off.
Proof.
have em : midpoint p q = midpoint q p by rewrite /midpoint (addrC p.1) (addrC p.2).
have := C71_cases q p off; rewrite -em.
have [[e ->]|[n [e ->]]|[n m l ->]|[n m l ->]] := C71_cases p q off.
- by case=> [[_ ->]|[n _]|[n _ _ _]|[n _ _ _]] //; case: n.
- case=> [[e' _]|[_ [_ ->]]|[_ m _ _]|[_ m _ _]] //; [by case: n | by case: m | by case: m].
- case=> [[e' _]|[_ [e' _]]|[_ _ _ ->]|[_ _ l' _]] //; [by case: n | by case: m |].
  by move: l'; rewrite ltNge (distrC p.2) (distrC p.1) l.
- case=> [[e' _]|[_ [e' _]]|[_ _ l' _]|[_ _ _ ->]] //; [by case: n | by case: m |].
  by move: l; rewrite ltNge (distrC q.2) (distrC q.1) l'.
Qed.

Lemma frac (off : R) n : `|off / n.+1%:R| <= `|off|.
Proof.
rewrite normrM normfV (ger0_norm (ler0n _ _)) ler_pdivr_mulr ?ltr0n // ler_pemulr ?normr_ge0 //.
by rewrite -[1]/(1%:R) ler_nat.
Qed.

Theorem C71_near_midpoint p q off : let m := midpoint p q in let l := label_position p q off in
  `|l.1 - m.1| <= `|off| /\ `|l.2 - m.2| <= `|off|.
Proof.
move=> m l.
have a (x y : R) : x + y - x = y by rewrite addrAC subrr add0r.
have [[_ e]|[_ [_ e]]|[_ _ _ e]|[_ _ _ e]] := C71_cases p q off; rewrite /l /m e /=.
- by rewrite a frac subrr normr0 normr_ge0.
- by rewrite subrr normr0 normr_ge0 a normrN.
- by rewrite subrr normr0 normr_ge0 a frac.
- by rewrite !a normrN.
Qed.

(** The label is moved off the midpoint. *)
Theorem C71_moved p q off : off != 0 -> label_position p q off <> midpoint p q.
Proof.
move=> h.
have n3 k : off / k.+1%:R != 0 by rewrite mulf_neq0 // invr_eq0 pnatr_eq0.
have a (x y : R) : y != 0 -> x + y <> x by move=> hy /eqP; rewrite -subr_eq0 addrAC subrr add0r (negbTE hy).
have [[_ ->]|[_ [_ ->]]|[_ _ _ ->]|[_ _ _ ->]] := C71_cases p q off; rewrite [midpoint p q]surjective_pairing; case.
- exact/a/n3.
- by apply/a; rewrite oppr_eq0.
- exact/a/n3.
- by move=> /a; rewrite oppr_eq0 => /(_ h).
Qed.

End C71.
Print Assumptions C71_cases.
Print Assumptions C71_direction.
Print Assumptions C71_near_midpoint.
Print Assumptions C71_moved.

Example C71_example :
  label_position ((0, 0) : point rat_realFieldType) (2%:R, 4%:R) (1 / 4%:R) = (3%:R / 4%:R, 9%:R / 4%:R) /\
  label_position ((0, 0) : point rat_realFieldType) (0, 4%:R) (3%:R / 4%:R) = (1 / 4%:R, 2%:R).
Proof. by split; apply/eqP; vm_compute. Qed.
