*.vo
*.vos
*.vok
*.glob
.*.aux
*.aux
rocq/Makefile
rocq/Makefile.conf
rocq/.Makefile.d
rocq/.lia.cache
rocq/.nia.cache
.lia.cache
.nia.cache
__pycache__/
