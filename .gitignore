rocq/Makefile
rocq/Makefile.conf
rocq/.Makefile.d
*.vo
*.vok
*.vos
*.glob
*.aux
.lia.cache
.nia.cache
__pycache__/
