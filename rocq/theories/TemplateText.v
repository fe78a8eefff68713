(** The template literals of /repo/src/sympkf/symbolic/templates, verbatim: licence.py, header.py,
    body_FDModelBuilder.py, body_ManifoldModelBuilder.py, footer.py.  Generated by
    tools/templates.py; a double quote is written twice in a Coq string, and the backslash before a
    line break in body_ManifoldModelBuilder.py 9 has vanished with the line break, as in the value of
    the Python literal. *)
From Coq Require Import String.
Local Open Scope string_scope.

(** templates/licence.py 1-8 *)
Definition licence : string :=
"###########################################
#
#  Code automaticaly rendered from ...
#
#
#
###########################################
".

(** templates/header.py 1-37 *)
Definition header : string :=
"from sympkf.model import Model
import numpy as np

class {{class_name}}(Model):

    # Prognostic functions (sympy functions):
    prognostic_functions = (
    {% for function in prognostic_functions %}        '{{function.as_keyvar}}',    # Write comments on the function here
    {% endfor %}    )

    {% if exogenous_functions_flag %}
    # Exogenous functions (sympy functions)
    exogenous_functions = (
    {% for function in exogenous_functions %}        '{{function.as_keyvar}}',    # Write comments on the exogenous function here
    {% endfor %}    )
    {% endif %}
    
    # Spatial coordinates
    coordinates = (
    {% for coord in coordinates %}        '{{coord.as_keyvar}}',    # Write comments on the coordinate here
    {% endfor %}    )

    {% if constant_functions_flag %}
    # Set constant functions
    constant_functions = (
    {% for function in constant_functions %}        '{{function.as_keyvar}}',    # Writes comment on the constant function here
    {% endfor %}    )
    {% endif %}

    {% if constants_flag %}
    # Set constants
    constants = (
    {% for constant in constants %}        '{{constant.as_keyvar}}',    # Writes comment on the constant here
    {% endfor %}    )
    {% endif %}

".

(** templates/body_FDModelBuilder.py 1-82 *)
Definition body_FD : string :=
"
    def __init__(self, shape=None, lengths=None, **kwargs):

        super().__init__(**kwargs) # Time scheme is set from Model.__init__()
                
        #---------------------------------
        # Set index array from coordinates
        #---------------------------------
        
        # a) Set shape
        shape = len(self.coordinates)*(100,) if shape is None else shape 
        if len(shape)!=len(self.coordinates):
            raise ValueError(f""len(shape) {len(shape)} is different from len(coordinates) {len(self.coordinates)}"")
        else:
            self.shape = shape
        
        # b) Set lengths
        lengths = len(self.coordinates)*(1.0,) if lengths is None else lengths
        if len(lengths)!=len(self.coordinates):
            raise ValueError(f""len(lengths) {len(lengths)} is different from len(coordinates) {len(self.coordinates)}"")        
        else:
            self.lengths = lengths
        
        # c) Set indexes
        self._index = {}
        for k,coord in enumerate(self.coordinates):
            self._index[(coord,0)] = np.arange(self.shape[k], dtype=int)
                
        # Set x/dx
        #-------------
        self.dx = tuple(length/shape for length, shape in zip(self.lengths, self.shape))
        self.x = tuple(self.index(coord,0)*dx for coord, dx in zip(self.coordinates, self.dx))
        self.X = np.meshgrid(*self.x)

        {% if constant_functions_flag %}
        #-----------------------
        # Set constant functions
        #-----------------------
          
        # Set a default nan value for constants
        {% for function in constant_functions %}self.{{function.as_keyvar}} = np.nan # @@ set constant value @@
        {% endfor %}
                
        # Set constant function values from external **kwargs (when provided)
        for key in kwargs:
            if key in self.constant_functions:
                setattr(self, key, kwargs[key])
        
        # Alert when a constant is np.nan
        for function in self.constant_functions:
            if getattr(self, function) is np.nan:
                print(f""Warning: function `{function}` has to be set"")
        {% endif %}

        {% if constants_flag %}
        #---------------------------
        # Set constants of the model
        #---------------------------
          
        # Set a default nan value for constants
        {% for constant in constants %}self.{{constant.as_keyvar}} = np.nan # @@ set constant value @@
        {% endfor %}
                
        # Set constant values from external **kwargs (when provided)
        for key in kwargs:
            if key in self.constants:
                setattr(self, key, kwargs[key])
        
        # Alert when a constant is np.nan
        for constant in self.constants:
            if getattr(self, constant) is np.nan:
                print(f""Warning: constant `{constant}` has to be set"")
        {% endif %}
    
    def index(self, coord, step:int):
        """""" Return int array of shift index associated with coordinate `coord` for shift `step` """"""
        # In this implementation, indexes are memory saved in a dictionary, feed at runtime 
        if (coord,step) not in self._index:
            self._index[(coord,step)] = (self._index[(coord,0)]+step)%self.shape[self.coordinates.index(coord)]
        return self._index[(coord,step)]

".

(** templates/body_ManifoldModelBuilder.py 1-52 *)
Definition body_Manifold : string :=
"
    def __init__(self, base_space, **kwargs):

        super().__init__() # Time scheme is set from Model.__init__()

        # Set base space (manifold)
        #------------------------------
        assert base_space.dimension == len(self.coordinates),                                                 ""Dimension of base_space is different from the number of coordinates""
        self.base_space = base_space
        
        {% if constant_functions_flag %}
        #-----------------------
        # Set constant functions
        #-----------------------
          
        # Set a default nan value for constants
        {% for function in constant_functions %}self.{{function.as_keyvar}} = np.nan # @@ set constant value @@
        {% endfor %}
                
        # Set constant function values from external **kwargs (when provided)
        for key in kwargs:
            if key in self.constant_functions:
                setattr(self, key, kwargs[key])
        
        # Alert when a constant is np.nan
        for function in self.constant_functions:
            if getattr(self, function) is np.nan:
                print(f""Warning: function `{function}` has to be set"")
        {% endif %}

        {% if constants_flag %}
        #---------------------------
        # Set constants of the model
        #---------------------------
          
        # Set a default nan value for constants
        {% for constant in constants %}self.{{constant.as_keyvar}} = np.nan # @@ set constant value @@
        {% endfor %}
                
        # Set constant values from external **kwargs (when provided)
        for key in kwargs:
            if key in self.constants:
                setattr(self, key, kwargs[key])
        
        # Alert when a constant is np.nan
        for constant in self.constants:
            if getattr(self, constant) is np.nan:
                print(f""Warning: constant `{constant}` has to be set"")
        {% endif %}

".

(** templates/footer.py 1-70 *)
Definition footer : string :=
"
    def trend(self, t, state):
        """""" Trend of the dynamics """"""

        # Init output state with pointer on data
        #-------------------------------------------

        #   a) Set the output array
        dstate = np.zeros(state.shape)

        #   b) Set pointers on output array `dstate` for the computation of the physical trend (alias only).
        {% for function in prognostic_functions -%}
        {{function.trend}} = dstate[{{function.index}}]
        {% endfor %}

        # Load physical functions from state
        #------------------------------------
        {% for function in prognostic_functions -%}
        {{function.as_keyvar}} = state[{{function.index}}]
        {% endfor %}  
        
        {% if constant_functions_flag %}
        # Alias for constant functions
        #-----------------------------
        {% for function in constant_functions -%}
        {{function.as_keyvar}} = self.{{function.as_keyvar}}
        {% endfor %}         
        {% endif %}        
        
        {% if constants_flag -%}
        # Alias for constants
        #--------------------
        {% for constant in constants -%}
        {{constant.as_keyvar}} = self.{{constant.as_keyvar}}
        {% endfor %}         
        {% endif %}        
         
        {% if exogenous_functions_flag %}
        # Compute exogenous functions
        #-----------------------------
        exogenous = self.compute_exogenous(t, state) # None if no exogenous function exists
        {% for function in exogenous_functions -%}
        {{function.as_keyvar}} = exogenous[{{function.index}}]
        {% endfor %} 
        {% endif -%}
        
        # Compute derivative
        #-----------------------
        #
        #  Warning: might be modified to fit appropriate boundary conditions. 
        #
        {% for derivative in spatial_derivatives -%}
        {{derivative.as_keyvar}} = {{derivative.as_code}}
        {% endfor %}
        
        # Implementation of the trend
        #--------------------------------
        {% for line in trend_code -%}
        {{line}}
        {% endfor %}
        
        return dstate        

    {% if exogenous_functions_flag %}
    def compute_exogenous(self, t, state):
        """""" Computation of exogenous functions """"""
        return None # if no exogenous functions are needed
    {% endif %}

".
