(** The files of the examples that come with the package, character by character:
    pynare/examples/pynare/. *)
From Coq Require Import String.
Local Open Scope string_scope.

(** pynare/examples/pynare/simple_rbc.mod:1-39 *)
Definition simple_rbc_text : string := "var c, k;

varexo x; % y;
/* Testing
a multiline
comment
*/
parameters aa alph bet delt gam;

aa = 0.8;
alph = 0.33;
bet = 0.9983;
gam = 2;
delt = 0.0005;
 
% single comment 

model;

[name = 'consumption', mcp = ""r > -1.94478"", id = 'CCC']
c = -k + aa*x*k(-1)^alph + (1-delt)*k(-1);

[dynamic]
c^(-gam) = (aa*alph*x(+1)*k^(alph-1) + 1 - delt) * c(+1)^(-gam)/(1+bet);
end;


// setting the initial values for endogenous variables
initval(all_values_required);
c = 0.7;
k = 0.4;
end;



shocks;
var x = 4;
% var y; stderr 1 + log(2);
end;
".

(** pynare/examples/pynare/simple_linear.mod:1-16 *)
Definition simple_linear_text : string := "/*
Simple linear model found on page 23 of Dynare manual
*/

var x y;
varexo ex, ey;
parameters a b, d;

a = 0.25;
b = 2*a;
d = a/2;

model(linear);
x = a*x(-1) + b*y(+1) + ex;
y = d * y(-1) + ey;
end;
".

(** pynare/examples/pynare/optim_ck.mod:1-32 *)
Definition optim_ck_text : string := "/*
Solving for the optimal path of consumption and capital. This model appears in 
the Dynare manual on page 28, and is accompanied by a nice description of how 
the initval and endval blocks work (which is why I've included it as an example)
*/


var c k;
varexo x;

parameters aa alph delt gam bet;
aa 		= 1.1;
alph 	= 0.66;
delt 	= 0.05;
gam 	= 0.04;
bet 	= 1/0.95 - 1;

model;
c + k - aa*x*k(-1)^alph - (1-delt)*k(-1);
c^(-gam) - (1+bet)^(-1)*(aa*alph*x(+1)*k^(alph-1) + 1 - delt)*c(+1)^(-gam);
end;

initval;
k = 12;
end;

endval;
c = 2;
x = 1.1;
end;

simul(periods=200);".

(** pynare/examples/pynare/basic_nk.mod:1-80 *)
Definition basic_nk_text : string := "
var n rr a y c w mu r pie;

varexo ea;

parameters chi eta phi_p phi_pie phi_y theta beta rho_a vol_a
	yss ass zss muss css wss fixed_cost nss
	piess rss rrss;


% Structural Parameters
beta 	= 0.99;
phi_p 	= 160;
eta 	= 1/1; % 1/frisch_elasticity
theta 	= 6;


% Steady-State Normalization & Parameter Implications
yss 		= 1;
ass 		= 1;
zss 		= 1;
muss 		= theta/(theta - 1);
css 		= yss;
wss 		= muss^(-1);
fixed_cost 	= (muss - 1)*yss;
nss 		= yss + fixed_cost;
chi 		= wss * css^(-1) * nss^(-eta);


% Monetary Policy Parameters
piess 	= 1;
rss 	= piess/beta;
rrss 	= 1/beta;
phi_pie = 2;
phi_y 	= 0.5;


% Stochastic Processes
rho_a = 0.90;
vol_a = 0.005;


model;

n = y + fixed_cost;  % Aggregate production function
w = chi * c * n^eta; % Labor Supply
w = 1/mu;            % Labor Demand

1 = r * beta * (a(+1)/a) * (c/c(+1)) * (1/pie(+1)); % Nominal Bond Euler Equation
1 = rr * beta * (a(+1)/a) * (c/c(+1));              % Real Bond Euler Equation
y = c + (phi_p/2) * (pie/piess - 1)^2 * y;          % National Accounts Identity

% Taylor-Rule
log(r) = log(rss) + phi_pie*log(pie/piess) + phi_y*log(y/yss);

% New-Keynesian Phillips Curve
phi_p*(pie/piess - 1)*(pie/piess) = (1-theta) + theta/mu + 
	beta * phi_p * (a(+1)/a) * (c/c(+1)) * (pie(+1)/piess-1) * (pie(+1)/piess) * (y(+1)/y);

% Preference Shock Evolution
a = rho_a*a(-1) + (1-rho_a)*ass + ea;

end;


initval;
a   = ass;
n   = nss;
pie = piess;
rr  = rrss;
r   = rss;
y   = yss;
c   = css;
w   = wss;
mu  = muss;
end;

shocks;
var ea = vol_a^2;
end;
".

(** pynare/examples/pynare/four_eq_nk.txt:1-69 *)
Definition four_eq_nk_text : string := "% replicates the four equation new-keynesian model outlined in Sims, Wu, and
%    Zhang's ""The Four Equation New Keynesian Model""

var r, infl, y, yp, qe, theta, x, rn;
varexo e_a, e_theta, e_qe, e_r;

%-- model parameters
parameters BETA, Z, SIGMA, CHI, BFI, BCB, GAMMA, ZETA, PHI_PI, PHI_X, RHO_R, RHO_A, RHO_F, RHO_THETA, RHO_Q;

%-- shock variances
parameters S_A, S_THETA, S_QE, S_R;


BETA   = 0.995;
Z      = 0.33;
SIGMA  = 1;
CHI    = 1;
BFI    = 0.70;
BCB    = 1 - BFI;
GAMMA  = 0.086;
ZETA   = 2.49;
PHI_PI = 1.5;
PHI_X  = 0;

RHO_R     = 0.8;
RHO_A     = 0.8;
RHO_F     = 0.8;
RHO_THETA = 0.8;
RHO_Q     = 0.8;

S_A     = 0.01 * (CHI*(1-Z) + SIGMA)/((1+CHI)*(1-Z));
S_THETA = 0.01;
S_QE    = 0.01;
S_R     = 0.01;

model(linear);

%-- investment-savings (eq 2.1)
x = x(+1) - ((1-Z)/SIGMA)*(r - infl(+1) - rn) - Z*(BFI*(theta(+1) - theta) + BCB*(qe(+1) - qe));

%-- phillips curve (eq 2.2)
infl = GAMMA*ZETA*x - (Z*GAMMA*SIGMA)/(1-Z)*(BFI*theta + BCB*qe) + BETA*infl(+1);

%-- taylor rule (eq 2.34)
r = RHO_R*r(-1) + (1-RHO_R)*(PHI_PI*infl + PHI_X*x) + S_R*e_r;

%-- long bonds (eq 2.35)
qe = RHO_Q*qe(-1) + S_QE*e_qe;

%-- credit shocks (eq 2.37)
theta = RHO_THETA*theta(-1) + S_THETA*e_theta;

%-- potential output (eq B.34)
yp = RHO_A*yp(-1) + ((1+CHI)*(1-Z)/(CHI*(1-Z) + SIGMA))*S_A*e_a;

%-- natural rate (eq B.41)
rn = (SIGMA*RHO_A - 1)/(1-Z)*yp;

%-- output gap (accounting)
x = y - yp;

end;

shocks;
var e_a     = 1;
var e_theta = 1;
var e_qe    = 1;
var e_r     = 1;
end;
".

(** pynare/examples/pynare/herbst_schorfheide.txt:1-44 *)
Definition herbst_schorfheide_text : string := "% mod file for the small new-keynesian model in Herbst & Schorfheide's 2015 book,
% ""Bayesian Estimation of DSGE Models"". the parameter values are taken directly from
% the ""Candidate.m"" file in the accompanying .zip file. however, the values of kappa and
% the three autoregressive parameters are transformed by the sigmoid function

var y, pi, r, g, z;
varexo e_r, e_g, e_z;

parameters tau, kappa, psi1, psi2, r_a, pi_a, gamma_q, rho_r, rho_g, rho_z;
parameters s_r, s_g, s_z;


tau     = 2.09;
kappa   = 0.65769; % sigmoid(0.653)
psi1    = 2.00;
psi2    = 0.65;
r_a     = 0.34;
pi_a    = 3.16;
gamma_q = 0.51;

rho_r = 0.81757; % sigmoid(1.5) 
rho_g = 0.98201; % sigmoid(4.0) 
rho_z = 0.92414; % sigmoid(2.5) 

s_r = 0.19;
s_g = 0.65;
s_z = 0.50;


model;

y  = y(+1) - (1/tau)*(r - pi(+1) - z(+1)) + g - g(+1);
pi = (1/(1+r_a/400))*pi(+1) + kappa*(y - g);
r  = rho_r*r(-1) + (1-rho_r)*(psi1*pi + psi2*(y - g)) + s_r*e_r;
g  = rho_g*g(-1) + s_g*e_g;
z  = rho_z*z(-1) + s_z*e_z;

end;

shocks;
var e_r = 1;
var e_g = 1;
var e_z = 1;
end;
".

