(** R2D2M2CP, assembly of the arrays.  Source: /repo/pymc_extras/distributions/multivariate/r2d2m2cp.py.
    Arrays with dims broadcast_dims + [dim] are flat row-major lists; [ncol] is the length of dim.  Simplification: positive_probs, their std and input_sigma are already broadcast to the
    shape of dims (np.broadcast_to), r2 and output_sigma to one value per row; phi may lack leading dimensions (entry i of the broadcast array is entry i mod its length).  The values of the free random variables are read from [env], by the name under which they are registered. *)
From Coq Require Import Reals String.
From Verif Require Import Common LogR Dist_Model.
Open Scope R_scope.

Inductive law := Beta (mu sigma : list R) | Normal (mu sigma : list R) | Dirichlet (a : list R).
(** what a pm.* call registers: a free variable with its law, or a Deterministic *)
Inductive reg := Free (name : string) (l : law) | Determ (name : string) (value : list R).
Definition reg_name (r : reg) : string := match r with Free n _ => n | Determ n _ => n end.
(** the prefix a nested pm.Model(name) puts before a variable's name *)
Definition under (model name : string) : string := (model ++ "::" ++ name)%string.

(** mask.nonzero() on the flat array, numbered from [i] *)
Fixpoint nonzero (i : nat) (mask : list bool) : list nat := match mask with [] => [] | b :: m => if b then i :: nonzero (S i) m else nonzero (S i) m end.
Fixpoint set_nth {A} (l : list A) (i : nat) (x : A) : list A := match l, i with [], _ => [] | _ :: t, O => x :: t | h :: t, S j => h :: set_nth t j x end.
(** pt.set_subtensor(base[idx], vals) *)
Fixpoint set_subtensor {A} (base : list A) (idx : list nat) (vals : list A) : list A :=
  match idx, vals with i :: idx', v :: vals' => set_subtensor (set_nth base i v) idx' vals' | _, _ => base end.
(** base[idx] *)
Definition take (base : list R) (idx : list nat) : list R := map (fun i => nth i base 0) idx.
Definition anyb (m : list bool) : bool := existsb (fun b => b) m.
Definition allb (m : list bool) : bool := forallb (fun b => b) m.

Section Prior.
Context (erfinv : R -> R) (env : string -> list R).

(** r2d2m2cp.py:133-170, _psi_masked, inside pm.Model(name) *)
Definition free_prob (p : R) : bool := negb ((if Req_EM_T p 1 then true else false) || (if Req_EM_T p 0 then true else false)).
Definition psi_masked (name : string) (const_probs const_std : bool) (probs std : list R) : res (option (list bool) * list R * list reg) :=
  if negb (const_probs && const_std) then Err TypeError else
  let mask := map free_prob probs in
  if anyb (map (fun bs => negb (fst bs) && negb (if Req_EM_T (snd bs) 0 then true else false)) (combine mask std)) then Err ValueError else
  if anyb (map negb mask) && anyb mask then
    let r_idx := nonzero 0 mask in
    let nm := under (under name "psi") "masked" in
    let psi := set_subtensor probs r_idx (env nm) in
    Ok (Some mask, psi, [Free nm (Beta (take probs r_idx) (take std r_idx)); Determ (under name "psi") psi])
  else if allb (map negb mask) then Ok (Some mask, probs, [])
  else Ok (None, env (under name "psi"), [Free (under name "psi") (Beta probs std)]).

(** r2d2m2cp.py:173-193, _psi *)
Definition psi_param (name : string) (const_probs const_std : bool) (probs : list R) (std : option (list R)) : res (option (list bool) * list R * list reg) :=
  match std with
  | Some s => psi_masked name const_probs const_std probs s
  | None => if negb const_probs then Err TypeError else Ok (let mask := map free_prob probs in if allb mask then None else Some mask, probs, [])
  end.

(** r2d2m2cp.py:78: phi * expand_dims(r2 * output_sigma**2, -1); entry i lies in row i / ncol *)
Definition explained_variance (ncol : nat) (output_sigma r2 phi : list R) : list R :=
  map (fun i => explained (nth (i / ncol) output_sigma 0) (nth (i / ncol) r2 0) (nth (i mod length phi) phi 0)) (seq 0 (length output_sigma * ncol)).
(** r2d2m2cp.py:26-46, on arrays *)
Definition musigma (psi ev : list R) (mask : option (list bool)) : list (R * R) :=
  map (fun i => psivar2musigma erfinv (nth i psi 0) (nth i ev 0) (match mask with None => None | Some m => Some (nth i m false) end)) (seq 0 (length ev)).

(** r2d2m2cp.py:49-117, _R2D2M2CP_beta; [dims_size] is the number of entries of an array with these dims *)
Definition zip2 (f : R -> R -> R) (a b : list R) : list R := map (fun xy => f (fst xy) (snd xy)) (combine a b).
Definition beta_coef (name : string) (ncol : nat) (output_sigma input_sigma r2 phi psi : list R) (mask : option (list bool)) (centered : bool) : list R * list reg :=
  let ev := explained_variance ncol output_sigma r2 phi in
  let ms := musigma psi ev mask in
  let mu_param := map fst ms in let std_param := map snd ms in
  let zeros := map (fun _ => 0) mu_param in let ones := map (fun _ => 1) mu_param in
  let mean := zip2 Rdiv mu_param input_sigma in let sd := zip2 Rdiv std_param input_sigma in
  if negb centered then
    let '(raw, regs) :=
      match mask with
      | Some m => if anyb m then
                    let r_idx := nonzero 0 m in
                    let nm := under (under name "raw") "masked" in
                    let raw := set_subtensor zeros r_idx (env nm) in
                    (raw, [Free nm (Normal (map (fun _ => 0) r_idx) (map (fun _ => 1) r_idx)); Determ (under name "raw") raw])
                  else (zeros, [])
      | None => (env (under name "raw"), [Free (under name "raw") (Normal zeros ones)])
      end in
    let beta := zip2 Rdiv (zip2 Rplus (zip2 Rmult raw std_param) mu_param) input_sigma in
    (beta, regs ++ [Determ name beta])
  else
    match mask with
    | Some m => if anyb m then
                  let r_idx := nonzero 0 m in
                  let nm := under name "masked" in
                  let beta := set_subtensor mean r_idx (env nm) in
                  (beta, [Free nm (Normal (take mean r_idx) (take sd r_idx)); Determ name beta])
                else (mean, [Determ name mean])
    | None => (env name, [Free name (Normal mean sd)])
    end.

(** r2d2m2cp.py:196-223: _phi registers at most one Dirichlet *)
Definition phi_param (name : string) (n : nat) (importance variance_explained : option (list R)) (concentration : option R) : res (list R * list reg) :=
  match r2_phi n importance variance_explained concentration (fun a => a), r2_phi n importance variance_explained concentration (fun _ => env (under name "phi")) with
  | Ok a, Ok v => Ok (v, match importance, concentration with None, None => [] | _, _ => [Free (under name "phi") (Dirichlet a)] end)
  | Err e, _ => Err e
  | _, Err e => Err e
  end.

(** r2d2m2cp.py:416-446, R2D2M2CP.  [r2_std] is None or the standard deviations, [r2] the means or the values, one per row. *)
Definition r2d2m2cp (name : string) (ncol : nat) (output_sigma input_sigma r2 : list R) (r2_std : option (list R)) (importance variance_explained : option (list R)) (concentration : option R)
    (const_probs const_std : bool) (probs : list R) (probs_std : option (list R)) (centered : bool) : res (list R * list R * list reg) :=
  let '(r2v, regs1) := match r2_std with Some s => (env (under name "r2"), [Free (under name "r2") (Beta r2 s)]) | None => (r2, []) end in
  do p <- phi_param name ncol importance variance_explained concentration;
  let '(phi, regs2) := p in
  do q <- psi_param name const_probs const_std probs probs_std;
  let '(mask, psi, regs3) := q in
  let '(beta, regs4) := beta_coef name ncol output_sigma input_sigma r2v phi psi mask centered in
  Ok (map (fun os => resid_sigma (fst os) (snd os)) (combine output_sigma r2v), beta, regs1 ++ regs2 ++ regs3 ++ regs4).
End Prior.
