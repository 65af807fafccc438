(** * Model of the [history] attribute of the filter classes

    base_filter.py 13-52, the general_filter methods and the two history plots.  Definitions only.
    A filter object is a heap of dictionaries and the address of the dictionary that [self.history]
    refers to; assigning to [self.history] changes the address, [self.history[k] = v] changes the
    dictionary at the address. *)

From Coq Require Import ZArith String List.
From mathcomp Require Import all_ssreflect all_algebra ssrZ zify.
From Verif Require Import Py Complex Signal Eigen Filter.

Set Implicit Arguments.
Unset Strict Implicit.
Unset Printing Implicit Defensive.

Import GRing.Theory Num.Theory Order.Theory.
Local Open Scope ring_scope.
Delimit Scope Z_scope with zz.

Section FilterState.
Variable R : rcfType.
Variable eigsh : forall n, 'M[R]_n -> seq (R * 'cV[R]_n).
Variable lstsq : forall m n, 'M[R]_(m, n) -> 'cV[R]_m -> 'cV[R]_n.
Variable rint : R -> int.
Variable argsort : seq R -> seq nat.
Variable expf : R -> R.
Variable chebfun : (R -> R) -> R -> R -> Z -> res (seq R).
Variable norm_2 : forall n, 'M[R]_n -> R.

(** Values in a history: None, arrays of one to three dimensions, arrays of errors, or a reference to
    another dictionary.  (base_filter.py 20-26.) *)
Inductive hval :=
| HNone
| HArr1 (x : seq R)
| HArr2 (x : seq (seq R))
| HArr3 (x : seq (seq (seq R)))
| HErr (x : seq (fl R))
| HDict (a : nat).

(** A filter object; its complex never changes and is passed to the methods.  (base_filter.py 13-26.) *)
Record fobj := mkObj { heap : seq (dict string hval); cur : nat }.

(** The dictionary at an address.  (base_filter.py 45-52.) *)
Definition dict_at (s : fobj) (a : nat) : dict string hval := nth [::] (heap s) a.

(** [self.history = d] for a new dictionary [d].  (base_filter.py 20-26 and 28-35.) *)
Definition assign_history (d : dict string hval) (s : fobj) : fobj :=
  mkObj (rcons (heap s) d) (size (heap s)).

(** base_filter.py 13-26: __init__. *)
Definition new_filter : fobj :=
  assign_history [:: ("filter"%string, HNone); ("f_estimated"%string, HNone);
                     ("frequency_responses"%string, HNone);
                     ("extracted_component_error"%string, HNone); ("filter_error"%string, HNone)]
                 (mkObj [::] 0).

(** base_filter.py 28-35: _reset_history; the new dictionary has no frequency_responses. *)
Definition reset_history (s : fobj) : fobj :=
  assign_history [:: ("filter"%string, HNone); ("f_estimated"%string, HNone);
                     ("extracted_component_error"%string, HNone); ("filter_error"%string, HNone)] s.

(** base_filter.py 37-52: set_history; the five entries of the current dictionary are overwritten in
    place.  astype(float) copies, so no array is shared. *)
Definition set_history (filter f_estimated frequency_responses errors filter_error : hval) (s : fobj)
  : fobj :=
  let d := dict_at s (cur s) in
  let d := dset String.eqb d "filter"%string filter in
  let d := dset String.eqb d "f_estimated"%string f_estimated in
  let d := dset String.eqb d "frequency_responses"%string frequency_responses in
  let d := dset String.eqb d "extracted_component_error"%string errors in
  let d := dset String.eqb d "filter_error"%string filter_error in
  mkObj (set_nth [::] (heap s) (cur s) d) (cur s).

(** The end of a method that computes [m] and then calls set_history with its results (the default
    filter_error is the empty array).  (For example edge_flow_denoising.py 67-72.) *)
Definition finish (m : res (run R)) (s : fobj) : fobj * res unit :=
  match m with
  | Ok r => (set_history (HArr2 (run_filter r)) (HArr1 (run_estimated r)) (HArr2 (run_responses r))
               (HErr (run_errors r)) (HArr1 [::]) s, Ok tt)
  | Raise e => (s, Raise e)
  end.

(** edge_flow_denoising.py 25-72 *)
Definition do_edge_denoise (sc : SC) (f f_true : seq R) (p_choice : string) (mu_vals : seq R)
    (s : fobj) : fobj * res unit :=
  finish (edge_flow_denoise eigsh sc f f_true p_choice mu_vals) s.

(** ls_filter_design.py 84-132 *)
Definition do_ls_one (sc : SC) (f : seq R) (component : string) (L : Z) (s : fobj)
  : fobj * res unit :=
  finish (ls_type_one eigsh lstsq rint argsort sc f component L) (reset_history s).

(** ls_filter_design.py 134-201; the history is reset before the component is looked at. *)
Definition do_ls_two (sc : SC) (f : seq R) (component : string) (L : Z) (tolerance : R) (s : fobj)
  : fobj * res unit :=
  finish (ls_type_two eigsh lstsq rint sc f component L tolerance) (reset_history s).

(** grid_based_filter_design.py 150-194 *)
Definition do_grid_denoise (sc : SC) (f f_true : seq R) (p_choice : string) (L : Z) (mu : R)
    (s : fobj) : fobj * res unit :=
  finish (grid_denoise eigsh lstsq sc f f_true p_choice L mu) s.

(** grid_based_filter_design.py 196-254 *)
Definition do_grid_extraction (sc : SC) (f : seq R) (component p_choice : string) (L num : Z)
    (mu cut steep : R) (s : fobj) : fobj * res unit :=
  finish (grid_extraction eigsh lstsq rint expf sc f component p_choice L num mu cut steep) s.

(** chebyshev_filter_design.py 160-270 *)
Definition do_cheb_apply (sc : SC) (f : seq R) (p_choice component : string) (L : Z) (n : option Z)
    (cut steep : R) (s : fobj) : fobj * res unit :=
  match cheb_apply eigsh lstsq rint argsort expf chebfun norm_2 sc f p_choice component L n cut
          steep with
  | Ok r => (set_history (HArr3 (cheb_filter r)) (HArr2 (cheb_estimated r)) (HArr2 (cheb_responses r))
               (HErr (cheb_errors r)) (HArr1 (cheb_filter_error r)) s, Ok tt)
  | Raise e => (s, Raise e)
  end.

(** f_est_g and f_est_c: the scalar 0 or what was read from the history.  (ls_filter_design.py 227-232;
    grid_based_filter_design.py 275-280.) *)
Inductive part := PZero | PArr (x : seq R).

(** [self.history["f_estimated"]], used as a number array.  (ls_filter_design.py 242 and 253.) *)
Definition read_estimate (s : fobj) : res part :=
  let! v := dget String.eqb (dict_at s (cur s)) "f_estimated"%string in
  match v with HArr1 x => Ok (PArr x) | _ => Raise TypeError end.

(** [f - p].  (ls_filter_design.py 257; grid_based_filter_design.py 299.) *)
Definition sub_part (f : seq R) (p : part) : res (seq R) :=
  match p with PZero => Ok f | PArr x => np_sub f x end.

(** One of the two blocks of general_filter: nothing for a size <= 0, otherwise the extraction, the
    estimate and the reference stored in the local dictionary.  (ls_filter_design.py 234-254.) *)
Definition general_block (extract : fobj -> fobj * res unit) (L : Z) (s : fobj)
  : fobj * res (part * hval) :=
  if Z.ltb 0 L then
    let: (s, r) := extract s in
    (s, let! _ := r in let! p := read_estimate s in Ok (p, HDict (cur s)))
  else (s, Ok (PZero, HNone)).

(** The body shared by the two general_filter methods (ls_filter_design.py 227-262 and
    grid_based_filter_design.py 275-304).  Returns (f_est_h, f_est_c, f_est_g). *)
Definition general_body (grad curl : fobj -> fobj * res unit) (f : seq R) (L1 L2 : Z) (s : fobj)
  : fobj * res (seq R * part * part) :=
  let: (s, r1) := general_block grad L1 s in
  match r1 with
  | Raise e => (s, Raise e)
  | Ok (f_est_g, h1) =>
      let: (s, r2) := general_block curl L2 s in
      match r2 with
      | Raise e => (s, Raise e)
      | Ok (f_est_c, h2) =>
          match (let! d := sub_part f f_est_g in sub_part d f_est_c) with
          | Raise e => (s, Raise e)
          | Ok f_est_h =>
              (assign_history [:: ("L1"%string, h1); ("L2"%string, h2)] s,
               Ok (f_est_h, f_est_c, f_est_g))
          end
      end
  end.

(** ls_filter_design.py 203-262: general_filter (default tolerance 1e-3). *)
Definition do_ls_general (sc : SC) (f : seq R) (L1 L2 : Z) (tolerance : R) (s : fobj)
  : fobj * res (seq R * part * part) :=
  general_body (do_ls_two sc f "gradient" L1 tolerance) (do_ls_two sc f "curl" L2 tolerance)
    f L1 L2 (reset_history s).

(** grid_based_filter_design.py 256-304: general_filter; the extractions use the defaults
    10, 0.5, 0.01, 100. *)
Definition do_grid_general (sc : SC) (f : seq R) (L1 L2 : Z) (s : fobj)
  : fobj * res (seq R * part * part) :=
  let extract c p L := do_grid_extraction sc f c p L 10 (1 / 2%:R) (1 / 100%:R) 100%:R in
  general_body (extract "gradient"%string "L1L"%string L1) (extract "curl"%string "L1U"%string L2)
    f L1 L2 s.

(** A call of one of the methods.  (The methods of edge_flow_denoising.py 25-72, ls_filter_design.py
    84-262, grid_based_filter_design.py 150-304 and chebyshev_filter_design.py 160-270.) *)
Inductive call :=
| CEdgeDenoise (f f_true : seq R) (p_choice : string) (mu_vals : seq R)
| CLsOne (f : seq R) (component : string) (L : Z)
| CLsTwo (f : seq R) (component : string) (L : Z) (tolerance : R)
| CLsGeneral (f : seq R) (L1 L2 : Z) (tolerance : R)
| CGridDenoise (f f_true : seq R) (p_choice : string) (L : Z) (mu : R)
| CGridExtract (f : seq R) (component p_choice : string) (L num : Z) (mu cut steep : R)
| CGridGeneral (f : seq R) (L1 L2 : Z)
| CChebApply (f : seq R) (p_choice component : string) (L : Z) (n : option Z) (cut steep : R).

(** One call: edge_flow_denoising.py 25-72, ls_filter_design.py 84-262, grid_based_filter_design.py
    150-304 or chebyshev_filter_design.py 160-270. *)
Definition exec (sc : SC) (c : call) (s : fobj) : fobj * res (option (seq R * part * part)) :=
  let quiet (x : fobj * res unit) := (x.1, let! _ := x.2 in Ok None) in
  let loud (x : fobj * res (seq R * part * part)) := (x.1, let! t := x.2 in Ok (Some t)) in
  match c with
  | CEdgeDenoise f t p mus => quiet (do_edge_denoise sc f t p mus s)
  | CLsOne f c L => quiet (do_ls_one sc f c L s)
  | CLsTwo f c L tol => quiet (do_ls_two sc f c L tol s)
  | CLsGeneral f L1 L2 tol => loud (do_ls_general sc f L1 L2 tol s)
  | CGridDenoise f t p L mu => quiet (do_grid_denoise sc f t p L mu s)
  | CGridExtract f c p L num mu cut steep => quiet (do_grid_extraction sc f c p L num mu cut steep s)
  | CGridGeneral f L1 L2 => loud (do_grid_general sc f L1 L2 s)
  | CChebApply f p c L n cut steep => quiet (do_cheb_apply sc f p c L n cut steep s)
  end.

(** A sequence of calls; exceptions are caught by the caller, who carries on with the object.  (Programs
    using the classes of ls_filter_design.py 12-262 and the others.) *)
Definition exec_all (sc : SC) (cs : seq call) (s : fobj) : fobj :=
  foldl (fun s c => (exec sc c s).1) s cs.

(** edge_flow_denoising.py 74-96: plot_desired_frequency_response, up to the two arrays handed to
    plt.plot, which must have the same length. *)
Definition plot_desired_frequency_response (sc : SC) (p_choice : string) (s : fobj)
  : res (seq R * seq R) :=
  let! v := dget String.eqb (dict_at s (cur s)) "frequency_responses"%string in
  match v with
  | HNone => Raise ValueError
  | HArr2 responses =>
      let! P := get_p_matrix sc p_choice in
      let! P := to_arr P in
      let! U := get_eigendecomposition eigsh (Dense P) (eps64 R) in
      let! y := py_nth responses (-1) in
      if size U == size y then Ok ([seq p.1 | p <- U], y) else Raise ValueError
  | _ => Raise TypeError
  end.

(** chebyshev_filter_design.py 320-371: plot_frequency_response_approx, up to the three arrays handed
    to plt.scatter: the eigenvalues, U.T @ f_true and the last entry of the history. *)
Definition plot_frequency_response_approx (sc : SC) (flow : seq R) (component : string) (s : fobj)
  : res (seq R * seq R * seq R) :=
  let! v := dget String.eqb (dict_at s (cur s)) "frequency_responses"%string in
  match v with
  | HNone => Raise ValueError
  | HArr2 responses =>
      let! L1 := hodge_laplacian_matrix sc 1 in
      let! L1 := to_arr L1 in
      let! U := get_eigendecomposition eigsh (Dense L1) (eps64 R) in
      let! f_true := get_true_signal lstsq rint sc flow component in
      let n := sh0 L1 in
      if size f_true == n then
        let! y := py_nth responses (-1) in
        if size U == size y then
          Ok ([seq p.1 | p <- U], [seq ((vec n p.2)^T *m vec n f_true) 0 0 | p <- U], y)
        else Raise ValueError
      else Raise ValueError
  | _ => Raise TypeError
  end.

End FilterState.
