(** Specification: what it means to solve the shallow water equations, and to be periodic. *)
From Coq Require Import Reals.
From Coquelicot Require Import Coquelicot.
Open Scope R_scope.

(** At the point (x, t) the function w with values (height h, discharge q) is differentiable and satisfies
    h_t + q_x = 0 and q_t + (q^2/h + g h^2/2)_x + g h b_x = 0 over the bottom b. *)
Definition solves_at (g : R) (b : R -> R) (w : R -> R -> R * R) (x t : R) : Prop :=
  exists ht qx qt fx bx,
    is_derive (fun s => fst (w x s)) t ht /\ is_derive (fun y => snd (w y t)) x qx /\
    is_derive (fun s => snd (w x s)) t qt /\
    is_derive (fun y => snd (w y t) ^ 2 / fst (w y t) + g * fst (w y t) ^ 2 / 2) x fx /\
    is_derive b x bx /\
    ht + qx = 0 /\ qt + fx + g * fst (w x t) * bx = 0.

(** A jump from the left state (hl, ql) to the right state (hr, qr) moving with speed v satisfies the Rankine-Hugoniot conditions. *)
Definition rankine_hugoniot (g v hl ql hr qr : R) : Prop :=
  v * (hl - hr) = ql - qr /\ v * (ql - qr) = (ql ^ 2 / hl + g * hl ^ 2 / 2) - (qr ^ 2 / hr + g * hr ^ 2 / 2).
