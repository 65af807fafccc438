(** * Model of pytspl/hogde_gp

    exact_gp.py, hodge_gp_trainer.py, kernel_serializer.py, kernels.py and forex/*.py.  Definitions only.

    Numbers form a real closed field; the rounding to float32 is not modelled.  gpytorch, torch and
    scikit-learn calls are arguments of the definitions. *)

From Coq Require Import ZArith String List.
From mathcomp Require Import all_ssreflect all_algebra ssrZ.
From Verif Require Import Py Complex Signal Eigen.

Set Implicit Arguments.
Unset Strict Implicit.
Unset Printing Implicit Defensive.

Import GRing.Theory Num.Theory Order.Theory.
Local Open Scope ring_scope.

(** ** Kernel classes *)

(** The five classes exported by forex/__init__.py.  (forex/__init__.py 1-5; diffusion.py 8,
    diffusion_non_hc.py 8, matern.py 8, matern_non_hc.py 8, laplacian.py 8.) *)
Inductive ktype := Diffusion | DiffusionNonHC | Matern | MaternNonHC | Laplacian.

(** The hyperparameters registered by __init__: diffusion.py 22-46, diffusion_non_hc.py 31-54,
    matern.py 23-63, matern_non_hc.py 22-63, laplacian.py 22-37. *)
Definition param_names (t : ktype) : seq string :=
  match t with
  | Diffusion | DiffusionNonHC => [:: "kappa_down"; "kappa_up"; "h"; "h_down"; "h_up"]%string
  | Matern | MaternNonHC =>
      [:: "kappa_down"; "kappa_up"; "kappa"; "mu"; "mu_down"; "mu_up"; "h"; "h_down"; "h_up"]%string
  | Laplacian => [:: "kappa_down"; "kappa_up"; "mu"]%string
  end.

(** ** Choosing a kernel class *)

(** kernels.py 27-34 and 36-39: the values of the enumeration. *)
Definition kernel_names : seq string :=
  [:: "diffusion"; "diffusion_non_hc"; "matern"; "matern_non_hc"; "laplacian"; "laplacian_non_hc"]%string.

(** kernels.py 41-49. *)
Definition forex_kernels : dict string ktype :=
  [:: ("diffusion", Diffusion); ("diffusion_non_hc", DiffusionNonHC); ("matern", Matern);
      ("matern_non_hc", MaternNonHC); ("laplacian", Laplacian)]%string.

(** kernel_serializer.py 31-59: _get_serializer. *)
Definition get_serializer (kernel_type data_name : string) : res ktype :=
  if py_in String.eqb kernel_type kernel_names then
    if String.eqb data_name "forex" then dget String.eqb forex_kernels kernel_type
    else Raise ValueError
  else Raise ValueError.

Section Gp.
Variable R : rcfType.

(** torch.exp; torch.pow / np.power; the transformation of gpytorch's Positive constraint (softplus)
    and its inverse. *)
Variable exp : R -> R.
Variable pow : R -> R -> R.
Variables softplus inv_softplus : R -> R.

(** A kernel object: its class, the number of rows of the three eigenvector arrays, the eigenpairs
    (column j of an array with entry j of the eigenvalues), the raw hyperparameters.  (matern.py 9-63
    and the other __init__ methods.) *)
Record kernel := mkKernel {
  k_type : ktype;
  k_rows : nat;
  k_harm : eigpairs R;
  k_grad : eigpairs R;
  k_curl : eigpairs R;
  k_raw : dict string R
}.

(** __init__ of the five classes: raw hyperparameters are zero.  (diffusion.py 9-46, diffusion_non_hc.py
    9-54, matern.py 9-63, matern_non_hc.py 9-63, laplacian.py 9-37.) *)
Definition new_kernel (t : ktype) (n : nat) (hp gp cp : eigpairs R) : kernel :=
  mkKernel t n hp gp cp [seq (s, 0) | s <- param_names t].

(** The properties kappa_down, kappa_up, h, ...: an undeclared one is an AttributeError.  (diffusion.py
    49-121, diffusion_non_hc.py 58-130, matern.py 65-196, matern_non_hc.py 65-196, laplacian.py 41-84
    (the getters).) *)
Definition get_param (k : kernel) (name : string) : res R :=
  match dget String.eqb (k_raw k) name with
  | Ok raw => Ok (softplus raw)
  | Raise _ => Raise AttributeError
  end.

(** The setters.  gpytorch's initialize rejects a value whose raw value violates the constraint: the
    inverse of a negative number is NaN (RuntimeError); zero is accepted, with raw value minus infinity,
    which is outside the numbers modelled.  Only declared names.  (diffusion.py 49-121,
    diffusion_non_hc.py 58-130, matern.py 65-196, matern_non_hc.py 65-196, laplacian.py 41-84 (the
    setters).) *)
Definition set_param (k : kernel) (name : string) (v : R) : res kernel :=
  if py_in String.eqb name (dkeys (k_raw k)) then
    if 0 < v then
      Ok (mkKernel (k_type k) (k_rows k) (k_harm k) (k_grad k) (k_curl k)
                   (dset String.eqb (k_raw k) name (inv_softplus v)))
    else if v == 0 then Raise NonFinite
    else Raise RuntimeError
  else Raise AttributeError.

(** [2 * mu / kappa / kappa + x] to the power [-mu].  (matern.py 200-208; hodge_gp_trainer.py 373-382.) *)
Definition matern_weight (mu kappa x : R) : R := pow (2%:R * mu / kappa / kappa + x) (- mu).

(** _eval_covar_matrix: diffusion.py 123-129, diffusion_non_hc.py 132-136, matern.py 198-209,
    matern_non_hc.py 198-216, laplacian.py 86-92.  A zero denominator gives infinities. *)
Definition eval_covar_matrix (k : kernel) : res (seq R * seq R * seq R) :=
  let hv := [seq p.1 | p <- k_harm k] in
  let gv := [seq p.1 | p <- k_grad k] in
  let cv := [seq p.1 | p <- k_curl k] in
  match k_type k with
  | Diffusion =>
      let! kd := get_param k "kappa_down" in
      let! ku := get_param k "kappa_up" in
      Ok ([seq exp (- x) | x <- hv], [seq exp (- kd * x) | x <- gv], [seq exp (- ku * x) | x <- cv])
  | DiffusionNonHC =>
      let! kd := get_param k "kappa_down" in
      Ok ([seq exp (- x) | x <- hv], [seq exp (- kd * x) | x <- gv], [seq exp (- kd * x) | x <- cv])
  | Matern =>
      let! mu := get_param k "mu" in
      let! md := get_param k "mu_down" in
      let! kd := get_param k "kappa_down" in
      let! mu' := get_param k "mu_up" in
      let! ku := get_param k "kappa_up" in
      if (kd == 0) || (ku == 0) then Raise NonFinite
      else Ok ([seq mu | _ <- hv], [seq matern_weight md kd x | x <- gv],
               [seq matern_weight mu' ku x | x <- cv])
  | MaternNonHC =>
      let! md := get_param k "mu_down" in
      let! kd := get_param k "kappa_down" in
      if kd == 0 then Raise NonFinite
      else Ok ([seq matern_weight md kd x | x <- hv], [seq matern_weight md kd x | x <- gv],
               [seq matern_weight md kd x | x <- cv])
  | Laplacian =>
      if (- milli R \in hv) || (0 \in gv) || (0 \in cv) then Raise NonFinite
      else Ok ([seq 1 / (milli R + x) | x <- hv], [seq 1 / x | x <- gv], [seq 1 / x | x <- cv])
  end.

(** Entry of [U[x1, :] * w @ U[x2, :].T] for rows number i and j.  (matern.py 225-227;
    hodge_gp_trainer.py 384-386.) *)
Definition weighted_product (ps : eigpairs R) (w : seq R) (i j : nat) : R :=
  \sum_(q < size ps) (nth (0, [::]) ps q).2`_i * w`_q * (nth (0, [::]) ps q).2`_j.

(** The factors of K0, K1 and K2 in forward: diffusion.py 147, diffusion_non_hc.py 154, matern.py 227,
    matern_non_hc.py 234, laplacian.py 109. *)
Definition factors (k : kernel) : res (R * R * R) :=
  match k_type k with
  | Diffusion | Matern =>
      let! h := get_param k "h" in
      let! hd := get_param k "h_down" in
      let! hu := get_param k "h_up" in
      Ok (h, hd, hu)
  | DiffusionNonHC | MaternNonHC => Ok (1, 1, 1)
  | Laplacian =>
      let! mu := get_param k "mu" in
      let! kd := get_param k "kappa_down" in
      let! ku := get_param k "kappa_up" in
      Ok (mu, kd, ku)
  end.

(** What forward returns: a matrix or its diagonal; matern.py 229-232. *)
Inductive tensor := Mat (rows : seq (seq R)) | Diag (entries : seq R).

(** forward: diffusion.py 136-152, diffusion_non_hc.py 143-159, matern.py 217-232,
    matern_non_hc.py 224-239, laplacian.py 99-114.  The inputs are column tensors of edge numbers,
    as gpytorch passes them; [None] for x2 has no attribute [long]. *)
Definition forward (k : kernel) (x1 : seq Z) (x2 : option (seq Z)) (diag : bool) : res tensor :=
  match x2 with
  | None => Raise AttributeError
  | Some x2 =>
      let! w := eval_covar_matrix k in
      let '(k0, k1, k2) := w in
      let! r1 := mapM (np_index (k_rows k)) x1 in
      let! r2 := mapM (np_index (k_rows k)) x2 in
      let! f := factors k in
      let '(f0, f1, f2) := f in
      let K := fun i j => f0 * weighted_product (k_harm k) k0 i j
                          + f1 * weighted_product (k_grad k) k1 i j
                          + f2 * weighted_product (k_curl k) k2 i j in
      if diag then Ok (Diag (mkseq (fun a => K (nth 0%N r1 a) (nth 0%N r2 a)) (minn (size r1) (size r2))))
      else Ok (Mat [seq [seq K i j | j <- r2] | i <- r1])
  end.

(** kernel_serializer.py 13-29: serialize. *)
Definition serialize (n : nat) (eigenpairs : eigpairs R * eigpairs R * eigpairs R) (kernel_type data_name : string)
  : res kernel :=
  let! t := get_serializer kernel_type data_name in
  Ok (new_kernel t n eigenpairs.1.1 eigenpairs.1.2 eigenpairs.2).

(** ** Models *)

(** exact_gp.py 8-37: the mean function ([None]: zero, otherwise the learned constant, initially 0), the
    raw scale of the ScaleKernel, the kernel; the noise of the likelihood; the mode flag of
    torch modules. *)
Record gpmodel := mkModel {
  m_kernel : kernel;
  m_constant : option R;
  m_raw_scale : R;
  m_noise : R;
  m_training : bool
}.

(** exact_gp.py 9-37: __init__. *)
Definition new_model (k : kernel) (noise : R) (mean_function : option string) : gpmodel :=
  mkModel k (match mean_function with
             | Some s => if String.eqb s "zero" then None else Some 0
             | None => Some 0
             end) 0 noise true.

(** exact_gp.py 39-48: forward; mean vector and covariance matrix of the prior. *)
Definition model_forward (m : gpmodel) (x : seq Z) : res (seq R * seq (seq R)) :=
  let! K := forward (m_kernel m) x (Some x) false in
  match K with
  | Mat rows => Ok (nseq (size x) (match m_constant m with None => 0 | Some c => c end),
                    [seq [seq softplus (m_raw_scale m) * y | y <- r] | r <- rows])
  | Diag _ => Raise ValueError
  end.

(** ** Data of the trainer *)

Section Data.
Variable eigsh : forall n, 'M[R]_n -> seq (R * 'cV[R]_n).

(** hodge_gp_trainer.py 84-126: get_eigenpairs, as (harmonic, gradient, curl). *)
Definition get_eigenpairs (sc : SC) (tolerance : R) : res (eigpairs R * eigpairs R * eigpairs R) :=
  let! hp := get_component_eigenpair eigsh sc "harmonic" tolerance in
  let! gp := get_component_eigenpair eigsh sc "gradient" tolerance in
  let! cp := get_component_eigenpair eigsh sc "curl" tolerance in
  Ok (hp, gp, cp).

(** hodge_gp_trainer.py 35-59: get_laplacians. *)
Definition get_laplacians (sc : SC) : res (seq pymat) :=
  let! L1 := hodge_laplacian_matrix sc 1 in
  let! L1 := toarray L1 in
  let! L1l := lower_laplacian_matrix sc 1 in
  let! L1l := toarray L1l in
  let! L1u := upper_laplacian_matrix sc 1 in
  let! L1u := toarray L1u in
  Ok [:: L1; L1l; L1u].

(** hodge_gp_trainer.py 61-82: get_incidence_matrices. *)
Definition get_incidence_matrices (sc : SC) : res (seq pymat) :=
  let! B1 := incidence_matrix sc 1 in
  let! B1 := toarray B1 in
  let! B2 := incidence_matrix sc 2 in
  let! B2 := toarray B2 in
  Ok [:: B1; B2].

(** torch.mean and torch.std (with divisor n - 1).  (hodge_gp_trainer.py 144.) *)
Definition tmean (y : seq R) : R := (\sum_(i < size y) y`_i) / (size y)%:R.
(** Standard deviation; hodge_gp_trainer.py 144. *)
Definition tstd (y : seq R) : R :=
  Num.sqrt ((\sum_(i < size y) (y`_i - tmean y) ^+ 2) / (size y).-1%:R).

(** hodge_gp_trainer.py 128-150: normalize_data.  The standard deviation of fewer than two numbers is
    NaN, and dividing by a zero standard deviation gives NaN or infinities. *)
Definition normalize_data (y_train y_test y : seq R) : res (seq R * seq R * seq R) :=
  if (size y_train <= 1)%N || (tstd y_train == 0) then Raise NonFinite
  else
    let f := fun x => (x - tmean y_train) / tstd y_train in
    Ok ([seq f x | x <- y_train], [seq f x | x <- y_test], [seq f x | x <- y]).

(** What train_test_split returns and stores: hodge_gp_trainer.py 214-219. *)
Record split := mkSplit {
  x_train : seq nat; y_train : seq R; x_test : seq nat; y_test : seq R
}.

(** Integer part of [ratio * n] for a ratio between 0 and 1.  (hodge_gp_trainer.py 183-185.) *)
Definition floor_mul (ratio : R) (n : nat) : nat := seq.count (fun k => k%:R <= ratio * n%:R) (iota 1 n).

(** sklearn.model_selection.train_test_split(x, y, train_size=ratio, random_state=seed) for a float
    ratio; [perm] is the permutation of 0..n-1 drawn from the seed.  (hodge_gp_trainer.py 183-185.) *)
Definition sk_split (perm : seq nat) (x : seq nat) (y : seq R) (ratio : R) : res split :=
  if ~~ ((0 < ratio) && (ratio < 1)) then Raise ValueError
  else if size x != size y then Raise ValueError
  else
    let n := size x in
    let n_train := floor_mul ratio n in
    if n_train == 0%N then Raise ValueError
    else
      let n_test := (n - n_train)%N in
      let itest := take n_test perm in
      let itrain := take n_train (drop n_test perm) in
      Ok (mkSplit [seq nth 0%N x i | i <- itrain] [seq y`_i | i <- itrain]
                  [seq nth 0%N x i | i <- itest] [seq y`_i | i <- itest]).

(** hodge_gp_trainer.py 152-219: train_test_split; the split is also stored in the trainer. *)
Definition train_test_split (sc : SC) (y : seq R) (perm : nat -> seq nat) (train_ratio : R)
    (data_normalization : bool) : res (split * seq nat * seq R) :=
  let! B1 := incidence_matrix sc 1 in
  let! B1 := toarray B1 in
  match B1 with
  | Dense A =>
      let n1 := sh1 A in
      let x := iota 0 n1 in
      let! s := sk_split (perm n1) x y train_ratio in
      if data_normalization then
        let! t := normalize_data (y_train s) (y_test s) y in
        let '(a, b, c) := t in
        Ok (mkSplit (x_train s) a (x_test s) b, x, c)
      else Ok (s, x, y)
  | _ => Raise IndexError
  end.

(** ** The trained model *)

(** hodge_gp_trainer.py 318-340: get_model_parameters on the stored model, in the order of the
    dictionary display. *)
Definition model_parameters (m : gpmodel) : res (dict string R) :=
  let k := m_kernel m in
  let! mu := get_param k "mu" in
  let! mu_down := get_param k "mu_down" in
  let! mu_up := get_param k "mu_up" in
  let! kappa := get_param k "kappa" in
  let! kappa_down := get_param k "kappa_down" in
  let! kappa_up := get_param k "kappa_up" in
  let! h := get_param k "h" in
  let! h_down := get_param k "h_down" in
  let! h_up := get_param k "h_up" in
  Ok [:: ("raw_noise", m_noise m); ("raw_mu", mu); ("raw_mu_down", mu_down); ("raw_mu_up", mu_up);
      ("raw_kappa", kappa); ("raw_kappa_down", kappa_down); ("raw_kappa_up", kappa_up);
      ("raw_h", h); ("raw_h_down", h_down); ("raw_h_up", h_up);
      ("raw_outputscale", softplus (m_raw_scale m))]%string.

(** np.isclose with its default tolerances.  (hodge_gp_trainer.py 397.) *)
Definition isclose (a b : R) : bool :=
  `|a - b| <= (10%:R ^+ 8)^-1 + (10%:R ^+ 5)^-1 * `|b|.

(** The variance returned by build_matern_kernel: the number 0 or an array; hodge_gp_trainer.py 391-400.
    *)
Inductive variances := VScalar (v : R) | VArray (v : seq R).

(** Smallest and largest entry; ValueError for an empty array.  (hodge_gp_trainer.py 394.) *)
Definition arr_min (v : seq R) : res R :=
  match v with [::] => Raise ValueError | a :: v' => Ok (foldl Num.min a v') end.
(** hodge_gp_trainer.py 395. *)
Definition arr_max (v : seq R) : res R :=
  match v with [::] => Raise ValueError | a :: v' => Ok (foldl Num.max a v') end.

(** hodge_gp_trainer.py 342-400: build_matern_kernel on the stored model.  Dividing by a kappa that is
    zero raises (they are Python floats). *)
Definition matern_matrix (sc : SC) (m : gpmodel) : res (seq (seq R) * variances) :=
  let! p := model_parameters m in
  let! mu := dget String.eqb p "raw_mu"%string in
  let! mu_down := dget String.eqb p "raw_mu_down"%string in
  let! mu_up := dget String.eqb p "raw_mu_up"%string in
  let! kappa := dget String.eqb p "raw_kappa"%string in
  let! kappa_down := dget String.eqb p "raw_kappa_down"%string in
  let! kappa_up := dget String.eqb p "raw_kappa_up"%string in
  let! h := dget String.eqb p "raw_h"%string in
  let! h_down := dget String.eqb p "raw_h_down"%string in
  let! h_up := dget String.eqb p "raw_h_up"%string in
  let! scale := dget String.eqb p "raw_outputscale"%string in
  let! eh := get_component_eigenpair eigsh sc "harmonic" (milli R) in
  let! eg := get_component_eigenpair eigsh sc "gradient" (milli R) in
  let! ec := get_component_eigenpair eigsh sc "curl" (milli R) in
  if (kappa == 0) || (kappa_down == 0) || (kappa_up == 0) then Raise ZeroDivisionError
  else
    let k0 := [seq mu | _ <- eh] in
    let k1 := [seq matern_weight mu_down kappa_down q.1 | q <- eg] in
    let k2 := [seq matern_weight mu_up kappa_up q.1 | q <- ec] in
    let n := sh1 (sc_B1 sc) in
    let K := fun i j => scale * (h * weighted_product eh k0 i j + h_down * weighted_product eg k1 i j
                                 + h_up * weighted_product ec k2 i j) in
    let variance := mkseq (fun i => K i i) n in
    let! vmin := arr_min variance in
    let! vmax := arr_max variance in
    Ok (mkseq (fun i => mkseq (K i) n) n, if isclose vmin vmax then VScalar 0 else VArray variance).

(** ** Trainers as objects *)

(** The models alive (by number; train stores a reference), the attribute self.model of the trainer,
    which __init__ (lines 16-33) does not create, and the model and the mode (training or not) of each optimisation step. *)
Record tworld := mkTw { tw_models : seq gpmodel; tw_model : option nat; tw_log : seq (nat * bool) }.

(** The calls: making a model, hodge_gp_trainer.py 221-267, 269-316, 318-340 and 342-400. *)
Inductive tcall :=
| CNew (m : gpmodel)
| CTrain (m : nat) (iters : Z) (step : nat -> gpmodel -> res gpmodel)
| CPredict (m : nat) (outcome : res unit)
| CParams
| CBuild.

(** What they return: hodge_gp_trainer.py 267, 316, 340 and 400. *)
Inductive tvalue := VNone | VParams (d : dict string R) | VKernel (K : seq (seq R) * variances).

(** Change of a model by training, hodge_gp_trainer.py 253-265. *)
Definition set_model (w : tworld) (i : nat) (m : gpmodel) : tworld :=
  mkTw (set_nth m (tw_models w) i m) (tw_model w) (tw_log w).

(** hodge_gp_trainer.py 253-265: the loop.  [step i] stands for zero_grad, the forward pass, the loss,
    backward and optimizer.step of iteration i. *)
Fixpoint train_loop (step : nat -> gpmodel -> res gpmodel) (i : nat) (w : tworld) (todo done : nat) : tworld * res unit :=
  match todo with
  | O => (w, Ok tt)
  | S todo' =>
      match List.nth_error (tw_models w) i with
      | None => (w, Raise AttributeError)
      | Some m =>
          let w := mkTw (tw_models w) (tw_model w) (rcons (tw_log w) (i, m_training m)) in
          match step done m with
          | Raise e => (w, Raise e)
          | Ok m' => train_loop step i (set_model w i m') todo' done.+1
          end
      end
  end.

(** One call.  train: lines 221-267; predict: 269-316 (model.eval() on line 290; [outcome] is what the
    prediction and the metrics do); get_model_parameters: 318-322; build_matern_kernel: 342-346.  The check
    [self.model is None] reads an attribute that need not exist. *)
Definition tcall1 (sc : SC) (w : tworld) (c : tcall) : tworld * res tvalue :=
  match c with
  | CNew m => (mkTw (rcons (tw_models w) m) (tw_model w) (tw_log w), Ok VNone)
  | CTrain i iters step =>
      match train_loop step i w (Z.to_nat iters) 0 with
      | (w', Ok _) => (mkTw (tw_models w') (Some i) (tw_log w'), Ok VNone)
      | (w', Raise e) => (w', Raise e)
      end
  | CPredict i outcome =>
      match List.nth_error (tw_models w) i with
      | None => (w, Raise AttributeError)
      | Some m =>
          let m' := mkModel (m_kernel m) (m_constant m) (m_raw_scale m) (m_noise m) false in
          (set_model w i m', let! _ := outcome in Ok VNone)
      end
  | CParams =>
      match tw_model w with
      | None => (w, Raise AttributeError)
      | Some i =>
          match List.nth_error (tw_models w) i with
          | None => (w, Raise AttributeError)
          | Some m => (w, let! d := model_parameters m in Ok (VParams d))
          end
      end
  | CBuild =>
      match tw_model w with
      | None => (w, Raise AttributeError)
      | Some i =>
          match List.nth_error (tw_models w) i with
          | None => (w, Raise AttributeError)
          | Some m => (w, let! K := matern_matrix sc m in Ok (VKernel K))
          end
      end
  end.

(** A program that catches every exception.  (Calls of the methods of hodge_gp_trainer.py 14-400.) *)
Fixpoint tcalls (sc : SC) (w : tworld) (l : seq tcall) : tworld * seq (res tvalue) :=
  match l with
  | [::] => (w, [::])
  | c :: l' =>
      let (w1, r) := tcall1 sc w c in
      let (w2, rs) := tcalls sc w1 l' in
      (w2, r :: rs)
  end.

End Data.
End Gp.
