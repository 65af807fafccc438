(** * C61-C63, C77: kernels *)

From Coq Require Import ZArith String List.
From mathcomp Require Import all_ssreflect all_algebra ssrZ zify.
From Coq Require Import Ring Field.
From Verif Require Import RingTac Py PyFacts ReaderFacts Complex Signal SignalSpec Eigen EigenSpec FilterSpec Gp GpSpec GpFacts.

Set Implicit Arguments.
Unset Strict Implicit.
Unset Printing Implicit Defensive.

Import GRing.Theory Num.Theory Order.Theory.
Local Open Scope ring_scope.
Delimit Scope Z_scope with zz.

(** ** C63: choosing a kernel *)

(** The class a name stands for. *)
Definition named (s : string) (t : ktype) : Prop :=
  match t with
  | Diffusion => s = "diffusion"%string
  | DiffusionNonHC => s = "diffusion_non_hc"%string
  | Matern => s = "matern"%string
  | MaternNonHC => s = "matern_non_hc"%string
  | Laplacian => s = "laplacian"%string
  end.

(** serialize returns a kernel exactly for the data name "forex" and the five implemented names, namely a new
    kernel of that class with the given eigenpairs; the sixth advertised name raises KeyError, every
    other call ValueError. *)
Theorem C63_serialize :
  forall (R : rcfType) n (eigenpairs : eigpairs R * eigpairs R * eigpairs R) s d,
  (forall k, serialize n eigenpairs s d = Ok k <->
     d = "forex"%string /\ exists t, named s t /\ k = new_kernel t n eigenpairs.1.1 eigenpairs.1.2 eigenpairs.2) /\
  (serialize n eigenpairs s d = Raise KeyError <-> d = "forex"%string /\ s = "laplacian_non_hc"%string) /\
  (forall e, serialize n eigenpairs s d = Raise e -> e = KeyError \/ e = ValueError).
Proof.
move=> R n ep s d; rewrite /serialize /get_serializer.
case: (String.eqb_spec d "forex") => [->|dn]; last first.
  have -> : (if py_in String.eqb s kernel_names then Raise ValueError else Raise ValueError) = Raise ValueError :> res ktype.
    by case: ifP.
  split=> [k|]; first by split=> // -[].
  by split; [split=> // -[]|move=> e [<-]; right].
have tests : forall (x : string), (String.eqb s x = true /\ s = x) \/ (String.eqb s x = false /\ s <> x).
  by move=> x; case: (String.eqb_spec s x); [left|right].
have fin : forall t, named s t -> (let! t := (if py_in String.eqb s kernel_names
      then dget String.eqb forex_kernels s else Raise ValueError) in
    Ok (new_kernel t n ep.1.1 ep.1.2 ep.2)) = Ok (new_kernel t n ep.1.1 ep.1.2 ep.2).
  by case=> /= ->.
have kn : forall t u, named s t -> named s u -> t = u.
  by case; case=> //= ->.
have sn : forall t, named s t -> s <> "laplacian_non_hc"%string by case=> /= ->.
have case1 : forall t, named s t -> _ := fun t nt => conj (fin t nt) nt.
case: (tests "diffusion"%string) => [[_ e]|[e1 n1]].
  have nt : named s Diffusion := e.
  rewrite (fin _ nt); split=> [k|]; last by split=> //; split=> // -[_ /(sn _ nt)].
  by split=> [[<-]|[_ [t [/(kn _ _ nt) <- ->]]]] //; split=> //; exists Diffusion.
case: (tests "diffusion_non_hc"%string) => [[_ e]|[e2 n2]].
  have nt : named s DiffusionNonHC := e.
  rewrite (fin _ nt); split=> [k|]; last by split=> //; split=> // -[_ /(sn _ nt)].
  by split=> [[<-]|[_ [t [/(kn _ _ nt) <- ->]]]] //; split=> //; exists DiffusionNonHC.
case: (tests "matern"%string) => [[_ e]|[e3 n3]].
  have nt : named s Matern := e.
  rewrite (fin _ nt); split=> [k|]; last by split=> //; split=> // -[_ /(sn _ nt)].
  by split=> [[<-]|[_ [t [/(kn _ _ nt) <- ->]]]] //; split=> //; exists Matern.
case: (tests "matern_non_hc"%string) => [[_ e]|[e4 n4]].
  have nt : named s MaternNonHC := e.
  rewrite (fin _ nt); split=> [k|]; last by split=> //; split=> // -[_ /(sn _ nt)].
  by split=> [[<-]|[_ [t [/(kn _ _ nt) <- ->]]]] //; split=> //; exists MaternNonHC.
case: (tests "laplacian"%string) => [[_ e]|[e5 n5]].
  have nt : named s Laplacian := e.
  rewrite (fin _ nt); split=> [k|]; last by split=> //; split=> // -[_ /(sn _ nt)].
  by split=> [[<-]|[_ [t [/(kn _ _ nt) <- ->]]]] //; split=> //; exists Laplacian.
have nn : forall t, ~ named s t by case.
case: (tests "laplacian_non_hc"%string) => [[_ e]|[e6 n6]].
  rewrite e /=; split=> [k|]; first by split=> // -[_ [t [h _]]]; case: (nn t); rewrite e.
  by split=> // x [<-]; left.
have f : forall a b : string, String.eqb a b = String.eqb b a by exact: String.eqb_sym.
have -> : py_in String.eqb s kernel_names = false.
  apply: (proj2 (py_in_false String.eqb String.eqb_eq s _)) => /= h; intuition congruence.
split=> [k|]; first by split=> // -[_ [t [/nn]]].
by split=> [|x [<-]]; [split=> // -[_ /n6]|right].
Qed.
Print Assumptions C63_serialize.

Section Kernels.
Variable R : rcfType.
Variable exp : R -> R.
Variable pow : R -> R -> R.
Variables softplus inv_softplus : R -> R.
Hypothesis EC : exp_contract exp.
Hypothesis PC : pow_contract pow.
Hypothesis SC : positive_contract softplus inv_softplus.
Add Field R_field2 : (mc_field R).

(** ** C77: hyperparameters *)

(** The hyperparameters that the five classes declare, by name; all others are an AttributeError. *)
Theorem C77_names : forall t n hp gp cp s,
  get_param softplus (new_kernel t n hp gp cp) s =
  if List.existsb (fun a => String.eqb a s)
       match t with
       | Diffusion | DiffusionNonHC => [:: "kappa_down"; "kappa_up"; "h"; "h_down"; "h_up"]%string
       | Matern | MaternNonHC =>
           [:: "kappa_down"; "kappa_up"; "kappa"; "mu"; "mu_down"; "mu_up"; "h"; "h_down"; "h_up"]%string
       | Laplacian => [:: "kappa_down"; "kappa_up"; "mu"]%string
       end
  then Ok (softplus 0) else Raise AttributeError.
Proof.
move=> t n hp gp cp s.
have g l : dget String.eqb [seq (a, 0 : R) | a <- l] s =
    if List.existsb (fun a => String.eqb a s) l then Ok 0 else Raise KeyError.
  by elim: l => //= a l IH; case: String.eqb.
by rewrite /get_param g -/(param_names t); case: List.existsb.
Qed.

(** In a new kernel all hyperparameters of its class have one common value; setting a declared hyperparameter to a
    positive number makes it read exactly that number and leaves the others, the class and the eigenpairs;
    a negative number raises RuntimeError.  Names that the class does not declare cannot be read. *)
Theorem C77_hyperparameters :
  (forall t n hp gp cp, reads softplus (new_kernel t n hp gp cp) (fun _ => softplus 0) /\ 0 < softplus 0) /\
  (forall k v s x, reads softplus k v -> List.In s (param_names (k_type k)) -> 0 < x ->
     exists k', set_param inv_softplus k s x = Ok k' /\ reads softplus k' (fun s' => if String.eqb s' s then x else v s') /\
     k_type k' = k_type k /\ k_rows k' = k_rows k /\ k_harm k' = k_harm k /\ k_grad k' = k_grad k /\ k_curl k' = k_curl k) /\
  (forall k v s x, reads softplus k v -> List.In s (param_names (k_type k)) -> x < 0 ->
     set_param inv_softplus k s x = Raise RuntimeError) /\
  (forall t n hp gp cp s, ~ List.In s (param_names t) ->
     get_param softplus (new_kernel t n hp gp cp) s = Raise AttributeError).
Proof.
split; [|split; [|split]].
- move=> t n hp gp cp; split; last by case: SC.
  by case: t => s /=; do ?[case=> [<-|]]; rewrite /get_param //=.
- move=> k v s x r d x0.
  have m : List.In s (dkeys (k_raw k)).
    case: (List.in_dec String.string_dec s (dkeys (k_raw k))) => // /dget_not_in e.
    by have := r s d; rewrite /get_param e.
  rewrite /set_param (proj2 (py_in_iff String.eqb String.eqb_eq s _) m) x0.
  eexists; split; first by reflexivity.
  split=> // s' d'; rewrite /get_param /=.
  rewrite (dget_dset String.eqb str_sym str_trans) String.eqb_sym.
  case: (String.eqb_spec s' s) => _; first by rewrite (proj2 SC).
  exact: r.
- move=> k v s x r d x0.
  have m : List.In s (dkeys (k_raw k)).
    case: (List.in_dec String.string_dec s (dkeys (k_raw k))) => // /dget_not_in e.
    by have := r s d; rewrite /get_param e.
  rewrite /set_param (proj2 (py_in_iff String.eqb String.eqb_eq s _) m).
  by rewrite ltNge (ltW x0) /= lt_eqF.
- move=> t n hp gp cp s h; rewrite /get_param.
  rewrite dget_not_in // => h'; apply: h; move: h'.
  by rewrite /= /dkeys; elim: (param_names t) => //= a l IH [->|/IH]; auto.
Qed.

(** ** C61: covariance matrices *)

(** For edge numbers in range and eigenvalues the class can deal with, the covariance matrix exists; it has one
    row and one column for each input, is symmetric, and its quadratic form is non-negative. *)
Theorem C61_positive_semidefinite :
  forall k v x, reads softplus k v -> positive k v -> fit k -> List.Forall (in_range (k_rows k)) x ->
  exists K, forward exp pow softplus k x (Some x) false = Ok (Mat K) /\ shaped K (size x) (size x) /\
    (forall i j, (i < size x)%N -> (j < size x)%N -> (nth [::] K i)`_j = (nth [::] K j)`_i) /\
    forall w, size w = size x -> 0 <= quad K w.
Proof.
move=> k v x r p f a; rewrite (forwardE exp pow false r p f a a).
set G := covariance _ _ _ _; set n := k_rows k.
have Ke : forall i j, (i < size x)%N -> (j < size x)%N ->
    (nth [::] [seq [seq G (wrap n i0) (wrap n j0) | j0 <- x] | i0 <- x] i)`_j = G (wrap n (nth 0%zz x i)) (wrap n (nth 0%zz x j)).
  by move=> i j hi hj; rewrite (nth_map 0%zz) // (nth_map 0%zz).
eexists; split; first by reflexivity.
split; first by split; [rewrite size_map|move=> _ /mapP[z _ ->]; rewrite size_map].
split=> [i j hi hj|w sw]; first by rewrite !Ke // /G covarianceC.
rewrite /quad.
have -> : \sum_(i < size w) \sum_(j < size w) w`_i * w`_j * (nth [::] [seq [seq G (wrap n i0) (wrap n j0) | j0 <- x] | i0 <- x] i)`_j
  = \sum_(i < size w) \sum_(j < size w) w`_i * w`_j * G (nth 0%N [seq wrap n z | z <- x] i) (nth 0%N [seq wrap n z | z <- x] j).
  apply: eq_bigr => i _; apply: eq_bigr => j _.
  by rewrite Ke -?sw // !(nth_map 0%zz) -?sw.
case: f => f0 [f1 f2]; apply: covariance_psd => q hq; apply: ltW; apply: mult_gt0 => //.
- exact: f0.
- by apply: f1; rewrite mem_cat hq.
- by move=> L _; apply: f2 => //; rewrite mem_cat hq.
- by apply: f1; rewrite mem_cat hq orbT.
- by move=> L _; apply: f2 => //; rewrite mem_cat hq orbT.
Qed.

(** Entry (a, b) for inputs x1, x2 is the covariance of the edges x1[a] and x2[b]; the call fails (IndexError)
    exactly if an edge number is out of range. *)
Theorem C61_entries :
  forall k v x1 x2, reads softplus k v -> positive k v -> fit k ->
  (List.Forall (in_range (k_rows k)) (x1 ++ x2) -> exists K, forward exp pow softplus k x1 (Some x2) false = Ok (Mat K) /\
     shaped K (size x1) (size x2) /\
     forall a b, (a < size x1)%N -> (b < size x2)%N ->
       (nth [::] K a)`_b = covariance (multiplier exp pow (k_type k) v) (k_harm k) (k_grad k) (k_curl k)
                             (wrap (k_rows k) (nth 0%zz x1 a)) (wrap (k_rows k) (nth 0%zz x2 b))) /\
  (~ List.Forall (in_range (k_rows k)) (x1 ++ x2) -> forall diag,
     forward exp pow softplus k x1 (Some x2) diag = Raise IndexError).
Proof.
move=> k v x1 x2 r p f; split=> [|a diag].
  move=> /List.Forall_app[a1 a2]; rewrite (forwardE exp pow false r p f a1 a2).
  eexists; split; first by reflexivity.
  split; first by split; [rewrite size_map|move=> _ /mapP[z _ ->]; rewrite size_map].
  by move=> i j hi hj; rewrite (nth_map 0%zz) // (nth_map 0%zz).
case: (covar_factors exp pow r p f) => k0 [k1 [k2 [f0 [f1 [f2 [e1 [e2 _]]]]]]].
have D : List.Forall (in_range (k_rows k)) x1 \/ ~ List.Forall (in_range (k_rows k)) x1.
  case: (List.Forall_dec (in_range (k_rows k)) _ x1) => [z|h|h]; [|by left|by right].
  by rewrite /in_range; case: (Z_le_dec (- Z.of_nat (k_rows k)) z) => h1; [case: (Z_lt_dec z (Z.of_nat (k_rows k))) => h2|];
    [left|right=> -[]|right=> -[]].
rewrite /forward e1 /=; case: D => [a1|/rows_out -> //].
by rewrite (rows_of a1) /= rows_out // => a2; apply: a; apply/List.Forall_app.
Qed.

(** The matrix on all edges multiplies every given eigenvector by its factor, and flows orthogonal to all of them by
    zero, if the eigenvectors are orthonormal. *)
Theorem C61_spectrum :
  forall k v, reads softplus k v -> positive k v -> fit k ->
  let n := k_rows k in
  (forall p, p \in k_harm k ++ k_grad k ++ k_curl k -> size p.2 = n) ->
  orthonormal (vectors (k_harm k ++ k_grad k ++ k_curl k)) ->
  exists K, forward exp pow softplus k [seq Z.of_nat i | i <- iota 0 n] (Some [seq Z.of_nat i | i <- iota 0 n]) false = Ok (Mat K) /\
    shaped K n n /\
    let g := multiplier exp pow (k_type k) v in
    (forall p, p \in k_harm k -> rmv K p.2 = scalef (g Harmonic p.1) p.2) /\
    (forall p, p \in k_grad k -> rmv K p.2 = scalef (g Gradient p.1) p.2) /\
    (forall p, p \in k_curl k -> rmv K p.2 = scalef (g Curl p.1) p.2) /\
    (forall f, size f = n -> (forall p, p \in k_harm k ++ k_grad k ++ k_curl k -> dotp p.2 f = 0) ->
       rmv K f = zerof R n).
Proof.
move=> k v r p f n sz on.
have a : List.Forall (in_range n) [seq Z.of_nat i | i <- iota 0 n].
  have F : forall (l : seq nat), (forall i, i \in l -> (i < n)%N) -> List.Forall (in_range n) [seq Z.of_nat i | i <- l].
    elim=> [|i l IH] h /=; constructor; first by have := h i (mem_head _ _); rewrite /in_range; lia.
    by apply: IH => j hj; apply: h; rewrite inE hj orbT.
  by apply: F => i; rewrite mem_iota.
rewrite (forwardE exp pow false r p f a a) -/n.
set g := multiplier _ _ _ _; set G := covariance _ _ _ _.
have -> : [seq [seq G (wrap n i) (wrap n j) | j <- [seq Z.of_nat i0 | i0 <- iota 0 n]] | i <- [seq Z.of_nat i | i <- iota 0 n]]
  = mkseq (fun i => mkseq (G i) n) n.
  have w : forall i, i \in iota 0 n -> wrap n (Z.of_nat i) = i.
    by move=> i; rewrite mem_iota /wrap => /andP[_ h]; rewrite Z.mod_small; lia.
  rewrite -map_comp; apply/eq_in_map => i hi /=; rewrite -map_comp; apply/eq_in_map => j hj /=.
  by rewrite !w.
eexists; split; first by reflexivity.
exact: covariance_spectrum.
Qed.

(** The classes without Hodge composition use only kappa_down and mu_down: setting any other hyperparameter
    changes no result. *)
Theorem C61_non_hc_ignored :
  forall k v s x k', k_type k = DiffusionNonHC \/ k_type k = MaternNonHC ->
  reads softplus k v -> positive k v -> fit k -> List.In s (param_names (k_type k)) -> 0 < x ->
  s <> "kappa_down"%string -> s <> "mu_down"%string -> set_param inv_softplus k s x = Ok k' ->
  forall x1 x2 diag, forward exp pow softplus k' x1 x2 diag = forward exp pow softplus k x1 x2 diag.
Proof.
move=> k v s x k' T r p f d x0 nk nm e x1 x2 diag.
case: (proj1 (proj2 C77_hyperparameters) k v s x r d x0) => k'' [e' [r' [t' [n' [h' [g' c']]]]]].
move: e'; rewrite e => -[E]; rewrite -{}E in r' t' n' h' g' c'.
rewrite /forward; case: x2 => // x2.
have cd : get_param softplus k' "kappa_down" = get_param softplus k "kappa_down".
  have i : List.In "kappa_down"%string (param_names (k_type k)) by case: T => ->; left.
  rewrite r' ?t' // r // (proj2 (String.eqb_neq _ _)) //; by apply/nesym.
rewrite /eval_covar_matrix /factors t' n' h' g' c' cd; case: T => T; rewrite T //.
have -> // : get_param softplus k' "mu_down" = get_param softplus k "mu_down".
have i : List.In "mu_down"%string (param_names (k_type k)) by rewrite T /=; tauto.
rewrite r' ?t' // r // (proj2 (String.eqb_neq _ _)) //; by apply/nesym.
Qed.

(** ** C62: calling conventions *)

(** With diag=True the diagonal of the same matrix is returned; without x2 the call always raises. *)
Theorem C62_diagonal :
  forall k v x1 x2 K, reads softplus k v -> positive k v -> fit k ->
  forward exp pow softplus k x1 (Some x2) false = Ok (Mat K) ->
  exists d, forward exp pow softplus k x1 (Some x2) true = Ok (Diag d) /\
    size d = minn (size x1) (size x2) /\ forall i, (i < size d)%N -> d`_i = (nth [::] K i)`_i.
Proof.
move=> k v x1 x2 K r p f h.
have D : List.Forall (in_range (k_rows k)) (x1 ++ x2).
  case: (List.Forall_dec (in_range (k_rows k)) _ (x1 ++ x2)) => [z|//|h'].
    by rewrite /in_range; case: (Z_le_dec (- Z.of_nat (k_rows k)) z) => h1; [case: (Z_lt_dec z (Z.of_nat (k_rows k))) => h2|];
      [left|right=> -[]|right=> -[]].
  by move: h; rewrite (proj2 (C61_entries x1 x2 r p f) h').
move: h; case/List.Forall_app: D => a1 a2; rewrite !(forwardE exp pow _ r p f a1 a2) => -[<-].
eexists; split; first by reflexivity.
rewrite size_mkseq; split=> // i hi; rewrite nth_mkseq //; move: hi; rewrite leq_min => /andP[h1 h2].
by rewrite (nth_map 0%zz) // (nth_map 0%zz).
Qed.

Theorem C62_default_never_works :
  forall k x diag, forward exp pow softplus k x None diag = Raise AttributeError.
Proof. by []. Qed.

End Kernels.

Print Assumptions C77_names.
Print Assumptions C77_hyperparameters.
Print Assumptions C61_positive_semidefinite.
Print Assumptions C61_entries.
Print Assumptions C62_diagonal.
Print Assumptions C62_default_never_works.
Print Assumptions C61_spectrum.
Print Assumptions C61_non_hc_ignored.

(** ** Examples *)

Section Example.
Variable R : rcfType.

(** Stand-ins for the exponential and the positivity constraint. *)
Definition grow (x : R) : R := if 0 <= x then 1 + x else (1 - x)^-1.
Definition grow_inv (v : R) : R := if 1 <= v then v - 1 else 1 - v^-1.
Definition pow_ex (x a : R) : R := if 0 < x then x else 1.

Lemma grow_gt0 : exp_contract grow.
Proof.
move=> x; rewrite /grow; case: (leP 0 x) => h; first by rewrite ltr_paddr ?ltr01.
by rewrite invr_gt0 subr_gt0 (lt_trans h) ?ltr01.
Qed.

Lemma grow_contract : positive_contract grow grow_inv.
Proof.
split=> [|v v0]; first exact: grow_gt0.
rewrite /grow_inv; case: (leP 1 v) => h; rewrite /grow; first by rewrite subr_ge0 h addrC subrK.
rewrite subr_ge0 leNgt invf_gt1 // h /= opprB addrC subrK invrK //.
Qed.

Lemma pow_ex_contract : pow_contract pow_ex.
Proof. by move=> x a h; rewrite /pow_ex h. Qed.

(** A network of two edges with one gradient and one curl mode. *)
Definition kernel_ex (t : ktype) : kernel R := new_kernel t 2 [::] [:: (1, [:: 1; 0])] [:: (2%:R, [:: 0; 1])].

Example C61_example : forall t,
  exp_contract grow /\ pow_contract pow_ex /\ positive_contract grow grow_inv /\
  reads grow (kernel_ex t) (fun _ => 1) /\ positive (kernel_ex t) (fun _ => 1) /\ fit (kernel_ex t) /\
  List.Forall (in_range (k_rows (kernel_ex t))) [:: 0; 1; -1]%zz /\
  (forall p, p \in k_harm (kernel_ex t) ++ k_grad (kernel_ex t) ++ k_curl (kernel_ex t) -> size p.2 = k_rows (kernel_ex t)) /\
  orthonormal (vectors (k_harm (kernel_ex t) ++ k_grad (kernel_ex t) ++ k_curl (kernel_ex t))) /\
  (t = Diffusion -> exists K, forward grow pow_ex grow (kernel_ex t) [:: 0; 1; -1]%zz (Some [:: 0; 1; -1]%zz) false = Ok (Mat K) /\
     (nth [::] K 0)`_0 = 2%:R^-1 /\ (nth [::] K 1)`_2 = 3%:R^-1 /\ (nth [::] K 0)`_1 = 0).
Proof.
move=> t.
have g0 : grow 0 = 1 by rewrite /grow lexx addr0.
have r : reads grow (kernel_ex t) (fun _ => 1).
  by move=> s h; rewrite -g0; apply: (proj1 (proj1 (C77_hyperparameters grow_contract) t 2%N [::] _ _)).
have p : positive (kernel_ex t) (fun _ => 1) by move=> s _; exact: ltr01.
have pos : forall p, p \in k_grad (kernel_ex t) ++ k_curl (kernel_ex t) -> 0 < p.1.
  by move=> q; rewrite !inE => /orP[] /eqP-> /=; rewrite ?ltr01 ?ltr0n.
have f : fit (kernel_ex t) by split=> //; split=> [q /pos/ltW|_ q /pos].
have a : List.Forall (in_range (k_rows (kernel_ex t))) [:: 0; 1; -1]%zz by repeat constructor; rewrite /in_range /=; lia.
split; first exact: grow_gt0. split; first exact: pow_ex_contract. split; first exact: grow_contract.
do 4 (split; first by []).
split; first by move=> q; rewrite !inE => /orP[] /eqP->.
split.
  move=> i j; rewrite /vectors /= /dotp.
  by case: i => [|[|]] //; case: j => [|[|]] // _ _; rewrite /= !big_ord_recl big_ord0 /= ?mulr0 ?mul0r ?mulr1 ?addr0 ?add0r.
move=> T; rewrite (forwardE grow pow_ex false r p f a a) T.
eexists; split; first by reflexivity.
have m1 : grow (- (1 * 1)) = 2%:R^-1.
  by rewrite mulr1 /grow oppr_ge0 leNgt ltr01 /= opprK -[1 + 1]/(2%:R).
have m2 : grow (- (1 * 2%:R)) = 3%:R^-1.
  by rewrite mul1r /grow oppr_ge0 leNgt ltr0n /= opprK -[1 + _](natrD _ 1 2).
have w0 : wrap 2 0 = 0%N by []. have w1 : wrap 2 1 = 1%N by []. have w2 : wrap 2 (-1) = 1%N by [].
rewrite /= w0 w1 w2 /covariance /mixture /= !big_cons !big_nil /= m1 m2.
by rewrite !(mulr0, mul0r, mulr1, mul1r, addr0, add0r).
Qed.

(** The diagonal of the covariance of C61_example; a missing second argument. *)
Example C62_example :
  (exists d, forward grow pow_ex grow (kernel_ex Diffusion) [:: 0; 1; -1]%zz (Some [:: 0; 1]%zz) true = Ok (Diag d) /\
     size d = 2%N /\ d`_0 = 2%:R^-1 /\ d`_1 = 3%:R^-1) /\
  forward grow pow_ex grow (kernel_ex Diffusion) [:: 0; 1; -1]%zz None false = Raise AttributeError.
Proof.
have [_ [_ [_ [r [p [f [a [_ [_ _]]]]]]]]] := C61_example Diffusion.
split; last exact: C62_default_never_works.
have a' : List.Forall (in_range (k_rows (kernel_ex Diffusion))) [:: 0; 1]%zz by repeat constructor; rewrite /in_range /=; lia.
rewrite (forwardE grow pow_ex true r p f a a').
eexists; split; first by reflexivity.
have m1 : grow (- (1 * 1)) = 2%:R^-1.
  by rewrite mulr1 /grow oppr_ge0 leNgt ltr01 /= opprK -[1 + 1]/(2%:R).
have m2 : grow (- (1 * 2%:R)) = 3%:R^-1.
  by rewrite mul1r /grow oppr_ge0 leNgt ltr0n /= opprK -[1 + _](natrD _ 1 2).
have w0 : wrap 2 0 = 0%N by []. have w1 : wrap 2 1 = 1%N by [].
rewrite /= w0 w1 /covariance /mixture /= !big_cons !big_nil /= m1 m2.
by rewrite !(mulr0, mul0r, mulr1, mul1r, addr0, add0r).
Qed.

Example C63_example :
  let eig : eigpairs R * eigpairs R * eigpairs R := ([::], [:: (1, [:: 1; 0])], [:: (2%:R, [:: 0; 1])]) in
  serialize 2 eig "matern" "forex" = Ok (kernel_ex Matern) /\
  serialize 2 eig "laplacian_non_hc" "forex" = Raise KeyError /\
  serialize 2 eig "matern" "water" = Raise ValueError.
Proof. by []. Qed.

(** Setting one of the parameters of the new kernel to 5. *)
Example C77_example :
  positive_contract grow grow_inv /\ get_param grow (kernel_ex Matern) "mu_up" = Ok 1 /\
  (exists k, set_param grow_inv (kernel_ex Matern) "mu_up" 5%:R = Ok k /\ get_param grow k "mu_up" = Ok 5%:R /\
     get_param grow k "mu_down" = Ok 1) /\
  set_param grow_inv (kernel_ex Matern) "mu_up" (- 1) = Raise RuntimeError /\
  get_param grow (kernel_ex Diffusion) "mu" = Raise AttributeError.
Proof.
have [H1 [H2 [H3 H4]]] := C77_hyperparameters grow_contract.
have g0 : grow 0 = 1 by rewrite /grow lexx addr0.
have [_ [_ [_ [r _]]]] := C61_example Matern.
have iu : List.In "mu_up"%string (param_names (k_type (kernel_ex Matern))) by rewrite /=; tauto.
have id : List.In "mu_down"%string (param_names (k_type (kernel_ex Matern))) by rewrite /=; tauto.
split; first exact: grow_contract. split; first exact: r.
split.
  have [k [e [rk [tk _]]]] := H2 _ _ _ 5%:R r iu (ltr0n _ 5).
  by exists k; split=> //; split; apply: rk; rewrite tk.
split; first by apply: H3 r iu _; rewrite oppr_lt0 ltr01.
by apply: H4 => /= h; intuition discriminate.
Qed.

End Example.
