(** Model of applications/nodal_stress/example.py: gradients at the nodes of the cells. *)
From Coq Require Import String List Arith ZArith.
From Verif Require Import Num Arr Fe Basis Problem.
Import ListNotations.
Local Open Scope num_scope.

Section Nodal.
  Context {K : ops}.
  (** element.points, example.py:53-54; [half] is 1/2 (Basis.v keeps the coordinates doubled) *)
  Definition element_points (half : K) (info : element_info) : list (list K) :=
    map (map (fun n => ofZ (Z.of_nat n) * half)) (lagrange_nodes2 (basix_ele info) (degree info)).
  (** example.py:40-58: entry [point, node, direction].  Simplification: element.points of a serendipity element has more rows than nodes; the theorems are about the Lagrange elements. *)
  Definition get_shape_grads_ref (half : K) (ele_type : string) : result (nat -> nat -> nat -> K) :=
    bind (get_elements ele_type) (fun info =>
    Ok (fun p a j => shape_grad info (nth p (element_points half info) []) a j)).
  (** example.py:61-87: entry [cell, point, node, direction] *)
  Definition get_shape_grads_physical (half : K) (ele_type : string) (f : fe K) : result (nat -> nat -> nat -> nat -> K) :=
    bind (get_shape_grads_ref half ele_type) (fun shape_grads_ref_ =>
    Ok (fun c p a j =>
      let jacobian_dx_deta_ := fun i j => sum_n (num_nodes f) (fun a => coo (points f) f c a i * shape_grads_ref_ p a j) in
      sum_n (dim f) (fun i => shape_grads_ref_ p a i * inv_mat (dim f) jacobian_dx_deta_ i j))).
  (** example.py:140-145: entry [cell, point, component, direction] *)
  Definition u_grads (half : K) (ele_type : string) (f : fe K) (sol : list (list K)) : result (nat -> nat -> nat -> nat -> K) :=
    bind (get_shape_grads_physical half ele_type f) (fun shape_grads_physical =>
    Ok (fun c p k j => sum_n (num_nodes f) (fun a => cell_sol_at f sol c a k * shape_grads_physical c p a j))).
End Nodal.
