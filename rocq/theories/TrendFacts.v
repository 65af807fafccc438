(** * Facts about the trend filter's loops, means and correlations *)

From Coq Require Import ZArith String List.
From mathcomp Require Import all_ssreflect all_algebra ssrZ zify.
From Verif Require Import Py PyFacts Complex ComplexSpec ComplexFacts LinAlg Signal SignalSpec Bridge
  SignalFacts Filter FilterSpec FilterFacts FilterFacts2 Props_LowPass Trend.

Set Implicit Arguments.
Unset Strict Implicit.
Unset Printing Implicit Defensive.

Import GRing.Theory Num.Theory Order.Theory.
Local Open Scope ring_scope.

Lemma mapM_nth (A B : Type) (f : A -> res B) l r (d : A) (e : B) : mapM f l = Ok r ->
  size r = size l /\ forall k, (k < size l)%N -> f (nth d l k) = Ok (nth e r k).
Proof.
elim: l r => [|x l IH] r /=; first by case=> <-.
move=> /bind_Ok[y [ey /bind_Ok[ys [eys [<-]]]]]; have [s h] := IH _ eys.
by split=> [|[|k] lk] /=; rewrite ?s //; exact: h.
Qed.

Lemma mapM_iota (B : Type) (f : nat -> res B) n r (e : B) : mapM f (iota 0 n) = Ok r ->
  size r = n /\ forall k, (k < n)%N -> f k = Ok (nth e r k).
Proof.
move=> /(mapM_nth 0%N e); rewrite size_iota => -[s h]; split=> // k lk.
by rewrite -h // nth_iota.
Qed.

Section Facts.
Variable R : rcfType.
Implicit Types (x y f : seq R).

Definition cell0 : seq R * fl R * fl R * fl R := ([::], NaN R, NaN R, NaN R).

(** Arithmetic mean. *)
Definition average x : R := (\sum_(i < size x) x`_i) / (size x)%:R.

(** Entry (i, j) of a completed table. *)
Lemma tableE n m body t : @table R n m body = Ok t ->
  size t = n /\ forall i, (i < n)%N -> size (nth [::] t i) = m /\
    forall j, (j < m)%N -> body i j = Ok (nth cell0 (nth [::] t i) j).
Proof.
move=> /(mapM_iota [::])[s h]; split=> // i li.
by have [si hi] := mapM_iota cell0 (h _ li).
Qed.

(** A table whose cells all complete. *)
Lemma mapM_total (A B : Type) (g : A -> res B) l : (forall a, List.In a l -> exists c, g a = Ok c) ->
  exists t, mapM g l = Ok t.
Proof.
elim: l => [|a l IH] h /=; first by eexists.
have [c ->] := h a (or_introl erefl); have [t ->] := IH (fun b hb => h b (or_intror hb)).
by eexists.
Qed.
Lemma In_iota k n : List.In k (iota 0 n) -> (k < n)%N.
Proof.
have : List.In k (iota 0 n) -> k \in iota 0 n.
  elim: (iota 0 n) => [|a l IH] //= [->|h]; rewrite inE ?eqxx // IH ?orbT //.
by move=> h /h; rewrite mem_iota.
Qed.
Lemma table_total n m body : (forall i j, (i < n)%N -> (j < m)%N -> exists c, body i j = Ok c) ->
  exists t, @table R n m body = Ok t.
Proof.
by move=> h; apply: mapM_total => i /In_iota li; apply: mapM_total => j /In_iota lj; exact: h.
Qed.

Lemma table_then n m body (C : Type) (g : seq (seq (seq R * fl R * fl R * fl R)) -> C) :
  (forall i j, (i < n)%N -> (j < m)%N -> exists c, body i j = Ok c) ->
  exists r, bind (@table R n m body) (fun t => Ok (g t)) = Ok r.
Proof. by move=> /table_total[t ->]; eexists. Qed.
Lemma table_pure n m body g : (forall i j, (i < n)%N -> (j < m)%N -> body i j = Ok (g i j)) ->
  @table R n m body = Ok [seq [seq g i j | j <- iota 0 m] | i <- iota 0 n].
Proof.
move=> h; rewrite /table (mapM_ext _ (fun i => Ok [seq g i j | j <- iota 0 m])) ?mapM_pure // => i /In_iota li.
by rewrite (mapM_ext _ (fun j => Ok (g i j))) ?mapM_pure // => j /In_iota lj; exact: h.
Qed.

(** A table whose first cell raises. *)
Lemma table_raise n m body e : (0 < n)%N -> (0 < m)%N -> body 0%N 0%N = Raise e -> @table R n m body = Raise e.
Proof. by case: n => // n; case: m => // m _ _ h; rewrite /table /= h. Qed.

(** Noise *)
Lemma np_add_addf x y : size x = size y -> np_add x y = Ok (addf x y).
Proof.
by move=> s; rewrite -(vecK s) -[y in np_add _ y](vecK erefl) np_add_unvec -addf_unvec !vecK.
Qed.

(** Means of rows *)
Lemma fl_mean_fin (xs : seq R) : xs != [::] -> fl_mean [seq Fin x | x <- xs] = Fin (average xs).
Proof.
move=> n0; rewrite /fl_mean size_map.
have -> : has (@fl_is_nan R) [seq Fin x | x <- xs] = false by elim: (xs).
have -> : has (@fl_is_inf R) [seq Fin x | x <- xs] = false by elim: (xs).
rewrite size_eq0 (negbTE n0) /=; congr (Fin (_ / _)).
by rewrite big_map (big_nth 0) big_mkord.
Qed.

(** Correlations *)
Definition centred x : seq R := [seq a - average x | a <- x].
Lemma corrE x y : size x = size y -> calculate_correlation x y =
  Ok (if (energy (centred x) == 0) || (energy (centred y) == 0) then NaN R
      else Fin (dotp (centred x) (centred y) / (Num.sqrt (energy (centred x)) * Num.sqrt (energy (centred y))))).
Proof.
move=> s; rewrite /calculate_correlation s eqxx -!/(centred _) !norm_eq0.
case: ifP => // _; by rewrite !normE /dotp size_map s.
Qed.

Definition corr x y : fl R :=
  if (energy (centred x) == 0) || (energy (centred y) == 0) then NaN R
  else Fin (dotp (centred x) (centred y) / (Num.sqrt (energy (centred x)) * Num.sqrt (energy (centred y)))).
Lemma corr_Ok x y : size x = size y -> calculate_correlation x y = Ok (corr x y).
Proof. exact: corrE. Qed.

(** One cell *)
Section Cell.
Variables (nodes : list Z) (E : list (Z * Z)) (T : list (list Z)) (nf : dict Z fdict)
          (ef : dict (Z * Z) fdict) (sc : SC).
Hypothesis H : make_sc nodes E T nf ef = Ok sc.
Let M := length E.

Lemma scE : sc_edges sc = E. Proof. by have [_ [-> _]] := make_sc_Ok _ _ _ _ _ _ H. Qed.

Definition comp_arr (c : string) : arr2 :=
  if String.eqb c "divergence" then sc_B1 sc else atr (sc_B2 sc).

Lemma div_mv x : size x = M -> get_divergence sc x = Ok (mv (sc_B1 sc) x).
Proof. by have [h0 h1] := B1_dims H; move=> s; rewrite (divergence_Ok H) // (mvE _ h0 h1). Qed.
Lemma curl_mv x : size x = M -> get_curl sc x = Ok (mv (atr (sc_B2 sc)) x).
Proof.
have [h0 h1] := B2_dims H; move=> s; rewrite (curl_Ok H) // (@mvE R _ (length T) (length E)) //.
by rewrite toM_atr.
Qed.

Lemma comp_Ok c comp x : components R sc c = Some comp -> size x = M -> comp x = Ok (mv (comp_arr c) x).
Proof.
rewrite /components /comp_arr; case: String.eqb => [[<-]|]; first exact: div_mv.
by case: String.eqb => // -[<-]; exact: curl_mv.
Qed.
Lemma comp_size c comp x y : components R sc c = Some comp -> comp x = Ok y -> size x = M.
Proof.
have [_ h1] := B1_dims H; have [h0 _] := B2_dims H.
rewrite /components; case: String.eqb => [[<-]|].
  by rewrite /get_divergence /= /arr_dot; case: eqP => // ->.
by case: String.eqb => // -[<-]; rewrite /get_curl /= /arr_dot /=; case: eqP => // ->.
Qed.
Lemma components_some c : (exists comp, components R sc c = Some comp) <->
  (c = "divergence" \/ c = "curl")%string.
Proof.
rewrite /components; case: String.eqb_spec => [->|n1]; first by split; [left|eexists].
case: String.eqb_spec => [->|n2]; first by split; [right|eexists].
by split=> [[]|[]].
Qed.

Lemma cellE c comp f x : components R sc c = Some comp -> size f = M -> size x = M ->
  cell comp f x = Ok (x, nrmse x f, Fin (norm (mv (comp_arr c) x)), corr f x).
Proof.
move=> ec sf sx; rewrite /cell nrmseE ?sx //= (comp_Ok ec sx) /= corr_Ok ?sf //.
Qed.
Lemma cell_inv c comp f x z : components R sc c = Some comp -> cell comp f x = Ok z ->
  size f = M /\ size x = M /\ z = (x, nrmse x f, Fin (norm (mv (comp_arr c) x)), corr f x).
Proof.
move=> ec h; have : size x = M /\ size f = M.
  move: h => /bind_Ok[e [_ /bind_Ok[y [ey /bind_Ok[r [er _]]]]]].
  have sx := comp_size ec ey; move: er; rewrite /calculate_correlation sx.
  by case: eqP.
by case=> sx sf; move: h; rewrite (cellE ec sf sx) => -[<-].
Qed.
End Cell.
End Facts.
